(** Property theorems: flows extracted from XZ-corrections and from patterns (C46). *)
From Coq Require Import Reals Lra Arith ZArith List Bool Lia Permutation.
From Verif Require Import Cplx Mat2 NSet QState Fundamentals CliffordDb Clifford Measure Layer Pattern Standardize PropStd
  FlowSem FlowDet OpenGraph FlowSpec Flow FlowWF FlowPat OGMap PropFlow TopGen Corr CFlow PropFind GPFlow PropGPFlow Space SpaceMin SpaceHeur PropSpace TranspilePat Extract PropExtract Recon.
Import ListNotations.

(** ** C46 *)
(** pattern.py:1050-1075 Pattern.to_causalflow, to_gflow, to_pauliflow *)
Definition pat_to_causalflow (it : iter) (p : pattern) (es : list (nat * nat)) : res pflow :=
  do xz <- pat_to_xz it p es; do xz <- xz_downcast xz; xz_to_causalflow it xz.
Definition pat_to_gflow (it : iter) (p : pattern) (es : list (nat * nat)) : res pflow :=
  do xz <- pat_to_xz it p es; do xz <- xz_downcast xz; xz_to_gflow it xz.
Definition pat_to_pauliflow (it : iter) (p : pattern) (es : list (nat * nat)) : res pflow :=
  do xz <- pat_to_xz it p es; xz_to_pauliflow it xz.

(** *** Specification *)
(** the same corrections for every measured node *)
Definition same_corr (xz xz' : xzcorr) : Prop := forall u, In u (dkeys (og_meas (xz_og xz))) ->
  dgets (xz_x xz) u = dgets (xz_x xz') u /\ dgets (xz_z xz) u = dgets (xz_z xz') u.
Definition same_x (xz xz' : xzcorr) : Prop := forall u, In u (dkeys (og_meas (xz_og xz))) -> dgets (xz_x xz) u = dgets (xz_x xz') u.
(** no X-correction targets an input *)
Definition no_input_x (xz : xzcorr) : Prop := forall u v, In u (dkeys (og_meas (xz_og xz))) -> mem v (dgets (xz_x xz) u) = true -> ~ In v (og_in (xz_og xz)).
(** [f] is a flow over the graph and the layers of [xz] *)
Definition flow_over (xz : xzcorr) (f : pflow) : Prop := pf_og f = xz_og xz /\ pf_layers f = xz_layers xz /\ NoDup (dkeys (pf_cf f)).
(** [q] computes on every branch what [p] computes *)
Definition same_map (p q : pattern) : Prop := forall o, exists c, phase c /\ forall psi,
  (forall n, prepared_in (p_seq p) n -> indep n psi) -> den (seq_ops o (p_seq p)) psi = cscale c (den (seq_ops o (p_seq q)) psi).

(** *** Proofs *)
Lemma flow_corr_same og cf ls xz xz' : xz_og xz = og -> corrf_ok og cf -> og_ok og -> flow_corr og cf ls xz -> flow_corr og cf ls xz' -> same_corr xz xz'.
Proof.
  intros E HC Hog (A1 & A2 & A) (B1 & B2 & B) u Hu. rewrite E in Hu. apply (proj2 (ok_meas _ Hog)), (cf_dom _ _ HC) in Hu. destruct Hu as (s & Hs).
  split; apply nset_ext; intros v; apply eq_true_iff_eq; destruct (A u s Hs v) as [X1 Z1], (B u s Hs v) as [X2 Z2]; [rewrite X1, X2|rewrite Z1, Z2]; tauto.
Qed.
Lemma same_flow_corr og cf ls xz xz' : og_ok og -> corrf_ok og cf -> xz_og xz = og -> xz_layers xz = ls -> same_corr xz xz' -> flow_corr og cf ls xz' -> flow_corr og cf ls xz.
Proof.
  intros Hog HC E1 E2 S (B1 & B2 & B). split; auto. split; auto. intros u s Hs v.
  assert (Hu : In u (dkeys (og_meas (xz_og xz)))) by (rewrite E1; apply (proj2 (ok_meas _ Hog)), (cf_dom _ _ HC); eauto).
  destruct (S u Hu) as [-> ->]. apply (B u s Hs v).
Qed.
Theorem C46_to_pauliflow : forall it xz, iter_ok it -> og_ok (xz_og xz) -> order_ok (xz_og xz) (xz_layers xz) -> xz_respects xz -> no_input_x xz ->
  (exists f, xz_to_pauliflow it xz = Ok f /\ flow_over xz f /\ pf_check it f = Ok tt /\ exists xz', pf_to_xz it f = Ok xz' /\ same_corr xz xz') \/
  (xz_to_pauliflow it xz = Err EFlow /\ forall f xz', flow_over xz f -> pf_check it f = Ok tt -> pf_to_xz it f = Ok xz' -> ~ same_corr xz xz').
Proof.
  intros it xz Hit Hog Ho HR XI. destruct (to_pauliflow_spec it Hit xz Hog Ho HR XI) as [(f & E & E1 & E2 & ND & PF & FC)|[E N]].
  - left. exists f. split; auto. split; [split; auto|]. assert (Hf : og_ok (pf_og f)) by (rewrite E1; auto).
    assert (PF' : pauli_flow (pf_og f) (pf_cf f) (pf_layers f)) by (rewrite E1, E2; auto). split.
    + destruct (pf_check_decides it Hit f Hf ND) as [[K _]|[_ K]]; auto. tauto.
    + destruct (pf_to_xz_corr it Hit f (pfl_order _ _ _ PF') (pfl_cf _ _ _ PF')) as (xz' & X & FC'). exists xz'. split; auto. eapply flow_corr_same; try exact FC; auto; [apply PF|]. rewrite <- E1, <- E2. auto.
  - right. split; auto. intros f xz' (E1 & E2 & ND) CK X S. assert (Hf : og_ok (pf_og f)) by (rewrite E1; auto).
    destruct (pf_check_decides it Hit f Hf ND) as [[_ PF]|[K _]]; [|congruence].
    destruct (pf_to_xz_corr it Hit f (pfl_order _ _ _ PF) (pfl_cf _ _ _ PF)) as (xz'' & X' & FC). rewrite X in X'. injection X' as <-. rewrite E1, E2 in *.
    apply (N (pf_cf f) PF). eapply same_flow_corr; eauto. apply PF.
Qed.
Print Assumptions C46_to_pauliflow.
(** a Pauli flow is recovered (up to the choice of the anachronical part) from its corrections *)
Theorem C46_pauliflow_round_trip : forall it f, iter_ok it -> og_ok (pf_og f) -> NoDup (dkeys (pf_cf f)) -> pf_check it f = Ok tt ->
  exists xz f', pf_to_xz it f = Ok xz /\ xz_to_pauliflow it xz = Ok f' /\ flow_over xz f' /\ pf_check it f' = Ok tt /\ exists xz', pf_to_xz it f' = Ok xz' /\ same_corr xz xz'.
Proof.
  intros it f Hit Hog ND CK. destruct (pf_check_decides it Hit f Hog ND) as [[_ PF]|[K _]]; [|congruence].
  destruct (pf_to_xz_corr it Hit f (pfl_order _ _ _ PF) (pfl_cf _ _ _ PF)) as (xz & X & FC). pose proof FC as (E1 & E2 & K). exists xz.
  destruct (C46_to_pauliflow it xz Hit) as [(f' & A & B)|[A N]]; rewrite ?E1, ?E2; auto.
  - apply PF. - apply (corr_respects (pf_og f) Hog (pf_cf f) (pf_layers f) PF xz FC).
  - intros u v Hu Hv. rewrite E1 in *. apply (proj2 (ok_meas _ Hog)), (cf_dom _ _ (pfl_cf _ _ _ PF)) in Hu. destruct Hu as (s & Hs). apply (K u s Hs v) in Hv. apply (cf_img _ _ (pfl_cf _ _ _ PF) u s v Hs (proj1 Hv)).
  - exists f'. auto.
  - exfalso. apply (N f xz); auto; [split; auto|]. intros u _; auto.
Qed.
Print Assumptions C46_pauliflow_round_trip.

(** to_causalflow: the correction function is read off the X-corrections *)
Lemma dgets_Some (d : dict nset) u s : dget d u = Some s -> dgets d u = s.
Proof. unfold dgets. intros ->. auto. Qed.
Lemma causal_x og cf ls xz u s : causal_flow og cf ls -> flow_corr og cf ls xz -> dget cf u = Some s -> dget (xz_x xz) u = Some s.
Proof.
  intros CF (_ & _ & K) Hs. destruct (cfl_all _ _ _ CF u s Hs) as (j & J1 & _ & J3 & _).
  assert (E : dgets (xz_x xz) u = s).
  { apply nset_ext. intros v. apply eq_true_iff_eq. destruct (K u s Hs v) as [-> _]. split; [tauto|]. intros H. split; auto. apply J1 in H. subst; auto. }
  unfold dgets in E. destruct (dget (xz_x xz) u) as [t|] eqn:D; [subst; auto|]. exfalso. assert (Q : mem j s = true) by (apply J1; auto). rewrite <- E, mem_empty in Q. discriminate.
Qed.
Theorem C46_to_causalflow : forall it xz, iter_ok it -> og_ok (xz_og xz) -> planar (xz_og xz) -> NoDup (dkeys (xz_x xz)) -> keys_measured (xz_og xz) (xz_x xz) (xz_z xz) ->
  (exists f xz', xz_to_causalflow it xz = Ok f /\ flow_over xz f /\ cf_check it f = Ok tt /\ cf_to_xz f = Ok xz' /\ same_x xz xz' /\
     forall g xz'', flow_over xz g -> cf_check it g = Ok tt -> cf_to_xz g = Ok xz'' -> same_x xz xz'' -> forall u, dget (pf_cf g) u = dget (pf_cf f) u) \/
  (xz_to_causalflow it xz = Err EFlow /\ forall f xz', flow_over xz f -> cf_check it f = Ok tt -> cf_to_xz f = Ok xz' -> ~ same_x xz xz').
Proof.
  intros it xz Hit Hog HP NX KM.
  assert (U : forall g xz'', flow_over xz g -> cf_check it g = Ok tt -> cf_to_xz g = Ok xz'' -> same_x xz xz'' -> forall u, dget (pf_cf g) u = dget (xz_x xz) u).
  { intros g xz'' (E1 & E2 & ND) CK X S u. assert (Hg : og_ok (pf_og g)) by (rewrite E1; auto). assert (Pg : planar (pf_og g)) by (rewrite E1; auto).
    destruct (cf_check_decides it Hit g Hg ND Pg) as [[_ CF]|[K _]]; [|congruence]. destruct (cf_to_xz_corr g ND CF) as (x' & X' & FC). rewrite X in X'. injection X' as <-.
    destruct (dget (pf_cf g) u) as [s|] eqn:D.
    - pose proof (causal_x _ _ _ _ _ _ CF FC D) as Q. assert (Hu : In u (dkeys (og_meas (xz_og xz)))) by (rewrite <- E1; apply (proj2 (ok_meas _ Hg)), (cf_dom _ _ (cfl_cf _ _ _ CF)); eauto).
      pose proof (S u Hu) as EQ. rewrite (dgets_Some _ _ _ Q) in EQ. unfold dgets in EQ. destruct (dget (xz_x xz) u) as [t|]; [subst; auto|]. exfalso.
      destruct (cfl_all _ _ _ CF u s D) as (j & J1 & _). assert (QQ : mem j s = true) by (apply J1; auto). rewrite <- EQ, mem_empty in QQ. discriminate.
    - destruct (dget (xz_x xz) u) as [t|] eqn:D'; auto. exfalso. apply dget_is_key in D'. assert (K := KM u (or_introl D')). rewrite <- E1 in K. apply (cf_dom _ _ (cfl_cf _ _ _ CF)) in K. destruct K as (s & K). congruence. }
  unfold xz_to_causalflow. set (f := PF (xz_og xz) (xz_x xz) (xz_layers xz)). destruct (cf_check_decides it Hit f Hog NX HP) as [[CK CF]|[CK N]]; rewrite CK; cbn [rbind].
  - left. destruct (cf_to_xz_corr f NX CF) as (xz' & X & FC). exists f, xz'. split; auto. split; [split; auto|]. split; auto. split; auto. split; auto.
    intros u Hu. apply (proj2 (ok_meas _ Hog)), (cf_dom _ _ (cfl_cf _ _ _ CF)) in Hu. destruct Hu as (s & Hs). rewrite (dgets_Some _ _ _ (causal_x _ _ _ _ _ _ CF FC Hs)). apply dgets_Some; auto.
  - right. split; auto. intros g xz' FO CG X S. apply N. pose proof (U g xz' FO CG X S) as EQ. destruct FO as (E1 & E2 & ND).
    assert (Hg : og_ok (pf_og g)) by (rewrite E1; auto). assert (Pg : planar (pf_og g)) by (rewrite E1; auto).
    destruct (cf_check_decides it Hit g Hg ND Pg) as [[_ CF]|[K _]]; [|congruence]. rewrite E1, E2 in CF. unfold f. cbn [pf_og pf_cf pf_layers].
    destruct CF as [A [B1 B2] C D]. constructor; [exact A|constructor|..].
    + intros i. rewrite <- EQ. apply B1. + intros i s j. rewrite <- EQ. apply B2. + intros i s. rewrite <- EQ. apply C. + intros i s. rewrite <- EQ. apply D.
Qed.
Print Assumptions C46_to_causalflow.

(** to_gflow *)
Definition gset (xz : xzcorr) (n : nat) (m : measurement) : nset :=
  match mlabel m with LPlane PXY => dgets (xz_x xz) n | _ => sadd n (dgets (xz_x xz) n) end.
Lemma gflow_cf_dict xz l : (forall p, In p l -> exists a pl, snd p = MBloch a pl) -> forall d,
  rfold (fun d p => do pl <- mplane (snd p); Ok (dset d (fst p) (match pl with PXY => dgets (xz_x xz) (fst p) | _ => sadd (fst p) (dgets (xz_x xz) (fst p)) end))) l d
  = Ok (fold_left (fun d p => dset d (fst p) (gset xz (fst p) (snd p))) l d).
Proof.
  induction l as [|[n m] l IH]; intros HB d; auto. cbn [rfold fold_left fst snd]. destruct (HB (n, m) (or_introl eq_refl)) as (a & pl & E). cbn in E. subst m. cbn [mplane rbind].
  rewrite IH by (intros p Hp; apply HB; right; auto). unfold gset at 2. cbn [mlabel]. destruct pl; auto.
Qed.
Lemma fold_dset_get (F : nat -> measurement -> nset) l : NoDup (map fst l) -> forall d, NoDup (dkeys d) ->
  let r := fold_left (fun d p => dset d (fst p) (F (fst p) (snd p))) l d in
  NoDup (dkeys r) /\ (forall n m, In (n, m) l -> dget r n = Some (F n m)) /\ forall n, ~ In n (map fst l) -> dget r n = dget d n.
Proof.
  induction l as [|[n m] l IH]; intros ND d NK; cbn [fold_left].
  - split; auto. split; auto. intros n m [].
  - cbn [map fst] in ND. inversion ND as [|? ? N1 N2]; subst. destruct (IH N2 (dset d n (F n m)) (dset_NoDup d n _ NK)) as (A & B & C). cbn [fst snd]. split; auto. split.
    + intros n' m' [[= <- <-]|H]; [|auto]. rewrite C by auto. rewrite dget_dset, Nat.eqb_refl. auto.
    + intros n' H. cbn [map fst In] in H. rewrite C by tauto. rewrite dget_dset. destruct (Nat.eqb_spec n n'); [subst; tauto|auto].
Qed.
Theorem C46_to_gflow : forall it xz, iter_ok it -> og_ok (xz_og xz) -> planar (xz_og xz) ->
  (exists f xz', xz_to_gflow it xz = Ok f /\ flow_over xz f /\ gf_check it f = Ok tt /\ gf_to_xz f = Ok xz' /\
     (xz_respects xz -> same_x xz xz') /\
     forall g xz'', flow_over xz g -> gf_check it g = Ok tt -> gf_to_xz g = Ok xz'' -> same_x xz xz'' -> forall u, dget (pf_cf g) u = dget (pf_cf f) u) \/
  (xz_to_gflow it xz = Err EFlow /\ forall f xz', flow_over xz f -> gf_check it f = Ok tt -> gf_to_xz f = Ok xz' -> ~ same_x xz xz').
Proof.
  intros it xz Hit Hog HP. unfold xz_to_gflow. rewrite gflow_cf_dict.
  2:{ intros [n m] Hp. apply (In_dget _ _ _ (proj1 (ok_meas _ Hog))) in Hp. destruct (HP n m Hp) as (a & pl & ->). cbn. eauto. }
  cbn [rbind]. destruct (fold_dset_get (gset xz) (og_meas (xz_og xz)) (proj1 (ok_meas _ Hog)) [] (NoDup_nil _)) as (NC & GC & OC). set (cf := fold_left (fun d p => dset d (fst p) (gset xz (fst p) (snd p))) (og_meas (xz_og xz)) ([] : dict nset)) in *.
  assert (GC' : forall n s, dget cf n = Some s <-> exists m, dget (og_meas (xz_og xz)) n = Some m /\ s = gset xz n m).
  { intros n s. destruct (dget (og_meas (xz_og xz)) n) as [m|] eqn:D.
    - rewrite (GC n m (dget_In _ _ _ D)). split; [intros [= <-]; eauto|intros (m' & [= <-] & ->); auto].
    - rewrite OC by (apply dget_None; auto). split; [discriminate|intros (m' & K & _); discriminate]. }
  set (f := PF (xz_og xz) cf (xz_layers xz)).
  assert (U : forall g xz'', flow_over xz g -> gf_check it g = Ok tt -> gf_to_xz g = Ok xz'' -> same_x xz xz'' -> forall u, dget (pf_cf g) u = dget cf u).
  { intros g xz'' (E1 & E2 & ND) CK X S u. assert (Hg : og_ok (pf_og g)) by (rewrite E1; auto). assert (Pg : planar (pf_og g)) by (rewrite E1; auto).
    destruct (gf_check_decides it Hit g Hg ND Pg) as [[_ GF]|[K _]]; [|congruence]. destruct (gf_to_xz_corr g ND GF) as (x' & X' & FC). rewrite X in X'. injection X' as <-.
    destruct FC as (_ & _ & FC). destruct (dget (og_meas (xz_og xz)) u) as [m|] eqn:M.
    - rewrite (GC u m (dget_In _ _ _ M)). assert (Hu : In u (dkeys (og_meas (xz_og xz)))) by (eapply dget_is_key; eauto). pose proof (S u Hu) as EQ.
      assert (Q : exists s, dget (pf_cf g) u = Some s) by (apply (cf_dom _ _ (gfl_cf _ _ _ GF)); rewrite E1; apply (proj2 (ok_meas _ Hog)); auto). destruct Q as (s & Hs). rewrite Hs. f_equal.
      assert (EX : forall v, mem v (dgets (xz_x xz) u) = true <-> mem v s = true /\ v <> u).
      { intros v. rewrite EQ. destruct (FC u s Hs v) as [-> _]. split.
        - intros [K1 K2]. split; auto. intros ->. apply (prec_irrefl (XZ (pf_og g) [] [] (pf_layers g)) (gfl_order _ _ _ GF) u K2).
        - intros [K1 K2]. split; auto. apply (gfl_1 _ _ _ GF u s v Hs K1). auto. }
      assert (L : labelled (pf_og g) u (mlabel m)) by (exists m; rewrite E1; auto). destruct (HP u m M) as (a & pl & ->). cbn [mlabel] in L.
      apply nset_ext. intros v. apply eq_true_iff_eq. unfold gset. cbn [mlabel]. destruct pl.
      + rewrite EX. split; [|tauto]. intros K. split; auto. intros ->. apply (gfl_3 _ _ _ GF u s Hs) in L. destruct L; congruence.
      + rewrite mem_sadd, orb_true_iff, Nat.eqb_eq, EX. destruct (Nat.eq_dec v u) as [->|NE]; [|tauto]. split; auto. intros _. apply (gfl_5 _ _ _ GF u s Hs L).
      + rewrite mem_sadd, orb_true_iff, Nat.eqb_eq, EX. destruct (Nat.eq_dec v u) as [->|NE]; [|tauto]. split; auto. intros _. apply (gfl_4 _ _ _ GF u s Hs L).
    - rewrite OC by (apply dget_None; auto). destruct (dget (pf_cf g) u) as [s|] eqn:D; auto. exfalso. assert (K : In u (dkeys (og_meas (xz_og xz)))).
      { apply (proj2 (ok_meas _ Hog)). rewrite <- E1. apply (cf_dom _ _ (gfl_cf _ _ _ GF)). eauto. } apply dget_None in M. tauto. }
  destruct (gf_check_decides it Hit f Hog NC HP) as [[CK GF]|[CK N]]; rewrite CK; cbn [rbind].
  - left. destruct (gf_to_xz_corr f NC GF) as (xz' & X & FC). exists f, xz'. split; auto. split; [split; auto|]. split; auto. split; auto. split; auto.
    intros HR u Hu. apply nset_ext. intros v. apply eq_true_iff_eq. pose proof Hu as Hu'. apply dget_keys in Hu'. destruct Hu' as (m & M).
    destruct FC as (_ & _ & FC). destruct (FC u (gset xz u m) (proj2 (GC' u _) (ex_intro _ m (conj M eq_refl))) v) as [-> _]. cbn [f pf_layers].
    assert (IR := prec_irrefl (XZ (xz_og xz) [] [] (xz_layers xz)) (gfl_order _ _ _ GF)). cbn [xz_layers] in IR. split.
    + intros K. split; [|apply HR; auto]. unfold gset. destruct (mlabel m) as [[| |]|]; rewrite ?mem_sadd, ?K, ?orb_true_r; auto.
    + intros [K P]. unfold gset in K. destruct (mlabel m) as [[| |]|]; auto; rewrite mem_sadd, orb_true_iff, Nat.eqb_eq in K; (destruct K as [->|K]; auto; exfalso; apply (IR u P)).
  - right. split; auto. intros g xz' FO CG X S. apply N. pose proof (U g xz' FO CG X S) as EQ. destruct FO as (E1 & E2 & ND).
    assert (Hg : og_ok (pf_og g)) by (rewrite E1; auto). assert (Pg : planar (pf_og g)) by (rewrite E1; auto).
    destruct (gf_check_decides it Hit g Hg ND Pg) as [[_ GF]|[K _]]; [|congruence]. rewrite E1, E2 in GF. unfold f. cbn [pf_og pf_cf pf_layers].
    destruct GF as [A [B1 B2] G1 G2 G3 G4 G5]. constructor; [exact A|constructor|..].
    + intros i. rewrite <- EQ. apply B1. + intros i s j. rewrite <- EQ. apply B2. + intros i s j. rewrite <- EQ. apply G1. + intros i s j. rewrite <- EQ. apply G2.
    + intros i s. rewrite <- EQ. apply G3. + intros i s. rewrite <- EQ. apply G4. + intros i s. rewrite <- EQ. apply G5.
Qed.
Print Assumptions C46_to_gflow.

(** *** Patterns *)
Record pat_xz_facts (it : iter) (p : pattern) (xz : xzcorr) : Prop := {
  pxf_og : og_ok (xz_og xz); pxf_simple : simple (og_graph (xz_og xz)); pxf_nx : NoDup (dkeys (xz_x xz)); pxf_keys : keys_measured (xz_og xz) (xz_x xz) (xz_z xz);
  pxf_order : order_ok (xz_og xz) (xz_layers xz); pxf_resp : corr_ordered (xz_x xz) (xz_z xz) (xz_layers xz);
  pxf_in : og_in (xz_og xz) = p_in p; pxf_out : og_out (xz_og xz) = p_out p;
  pxf_prep : forall n, prepared_in (p_seq p) n <-> In n (g_nodes (og_graph (xz_og xz))) /\ ~ In n (og_in (xz_og xz));
  pxf_sem : exists order, order_compat (xz_og xz) (xz_layers xz) order /\ forall o, seq_ops o (p_seq p) ≈ seq_ops o (xz_cmds it xz order) }.
Lemma pat_xz it p es xz : iter_ok it -> pat_ok p -> sem_ok (p_seq p) = true -> edges_of p es -> pat_to_xz it p es = Ok xz -> pat_xz_facts it p xz.
Proof.
  intros Hit PO SO EO X. unfold pat_to_xz in X. destruct (from_pattern p) as [st|e] eqn:E; cbn [rbind] in X; [|discriminate].
  destruct (std_facts p st PO SO E) as (W & OK & NI & HL & EI & EOut & RU & _ & EN). pose proof (EO st E) as HE.
  assert (HP : forall q, In q (sp_n st) -> snd q = SPlus).
  { destruct (forallb (fun q => is_plus (snd q)) (sp_n st)) eqn:FP.
    - intros q Hq. rewrite forallb_forall in FP. specialize (FP q Hq). destruct (snd q); [auto|discriminate].
    - unfold std_to_xz, std_opengraph in X. rewrite FP in X. discriminate. }
  destruct (std_to_xz_ok it st es Hit W OK NI HE HL HP) as (ls & Es & OO & CO). rewrite Es in X. injection X as <-.
  pose proof (sog_ok st es W OK NI HE) as OG. constructor; cbn [xz_og xz_x xz_z xz_layers og_graph og_in og_out]; auto.
  - exact (sg_simple st es HE HL).
  - apply (corr_fold it _ Hit []). constructor.
  - set (x := fold_left (update_corrections it) (map (fun m => (mc_node m, mc_s m)) (sp_m st) ++ sp_x st) []) in *.
    set (z := fold_left (update_corrections it) (map (fun m => (mc_node m, mc_t m)) (sp_m st) ++ sp_z st) []) in *.
    intros u Hu. assert (K : exists v, corrects x z u v).
    { destruct Hu as [Hu|Hu]; [destruct (corr_fold it (map (fun m => (mc_node m, mc_s m)) (sp_m st) ++ sp_x st) Hit [] (NoDup_nil _)) as (_ & B & C)|destruct (corr_fold it (map (fun m => (mc_node m, mc_t m)) (sp_m st) ++ sp_z st) Hit [] (NoDup_nil _)) as (_ & B & C)];
      apply C in Hu; (destruct Hu as [[]|(v & D & K1 & K2)]); exists v; apply corrects_dgets; [left|right]; apply B; right; eauto. }
    destruct K as (v & K). apply (corrects_depends it st Hit) in K. apply (depends_meas st W) in K. cbn [og_graph og_out]. rewrite (sg_nodes st es W), (proj2 OK). split; [apply (sw_mn _ W); tauto|tauto].
  - intros n. rewrite (sg_nodes st es W n). unfold std_node. split.
    + intros (s & Hs). assert (K : In n (map fst (sp_n st))) by (rewrite EN; apply in_map_iff; exists (n, s); split; auto; unfold ns_of; apply in_flat_map; exists (CN n s); split; auto; left; auto).
      split; auto. apply (sw_nin _ W); auto.
    + intros [[K|K] K']; [tauto|]. rewrite EN in K. apply in_map_iff in K. destruct K as ([k s] & <- & K). unfold ns_of in K. apply in_flat_map in K. destruct K as (c & K1 & K2). destruct c; cbn in K2; try tauto. destruct K2 as [[= <- <-]|[]]. eexists. eauto.
  - set (xz := XZ _ _ _ ls). destruct (total_order_ok (xz_og xz) ls OG OO it xz Hit eq_refl eq_refl) as (o & T & OC). exists o. split; [exact OC|]. intros br.
    etransitivity; [apply (from_pattern_same p st es PO SO E HE)|]. symmetry. apply (std_xz_round it st es Hit W OK NI HE HP ls o OO CO OC).
Qed.
Lemma respects_of it p xz : pat_xz_facts it p xz -> xz_respects xz.
Proof. intros F u v _ H. apply (pxf_resp _ _ _ F), corrects_dgets; auto. Qed.
(** the branch where all outcomes are 0 computes the map of the open graph *)
Lemma branch_0 it p xz : iter_ok it -> pat_xz_facts it p xz -> seq_ops (fun _ => false) (p_seq p) ≈ graph_ops (xz_og xz).
Proof.
  intros Hit F. destruct (pxf_sem _ _ _ F) as (order & OC & S). rewrite S.
  rewrite (xz_branch it xz order (fun _ => false) Hit (pxf_og _ _ _ F) (pxf_order _ _ _ F) (respects_of _ _ _ F) OC).
  - rewrite (player_id (g_nodes (og_graph (xz_og xz)))).
    + cbn [app]. apply (graph_ops_eq it (xz_og xz) order (xz_layers xz) Hit (pxf_og _ _ _ F) OC).
    + intros n _. unfold accx. clear. induction order as [|u l IH]; auto. cbn [fold_right]. rewrite IH. destruct (n =? u)%nat; auto.
    + intros n _. unfold accz. clear. induction order as [|u l IH]; auto. cbn [fold_right]. rewrite IH. destruct (n =? u)%nat; auto.
  - intros u v _ H. apply corrects_dgets, (pxf_resp _ _ _ F) in H. eapply prec_nd; [|eauto]; apply F.
Qed.
Lemma det_implements it p xz : iter_ok it -> pat_xz_facts it p xz -> deterministic p -> implements p (xz_og xz).
Proof.
  intros Hit F D o. destruct (D o (fun _ => false)) as (c & Hc & E). destruct (branch_0 it p xz Hit F) as (d & Hd & E'). exists (c * d)%C. split; [apply phase_mul; auto|].
  intros psi Hp. rewrite E, E', cscale_cscale; auto. intros n Hn. apply (pxf_prep _ _ _ F) in Hn. apply Hp; tauto.
Qed.
Lemma implements_same it p q xz og : pat_xz_facts it p xz -> og = xz_og xz -> implements p og -> implements q og -> same_map p q.
Proof.
  intros F -> A B o. destruct (A o) as (c & Hc & E), (B o) as (d & Hd & E'). exists (c * Cconj d)%C. split; [apply phase_mul; auto; apply phase_conj; auto|]. intros psi Hp.
  assert (Hq : forall n, In n (g_nodes (og_graph (xz_og xz))) -> ~ In n (og_in (xz_og xz)) -> indep n psi) by (intros n H1 H2; apply Hp, (pxf_prep _ _ _ F); auto).
  rewrite E, E' by auto. rewrite cscale_cscale. f_equal. transitivity (c * (Cconj d * d))%C; [rewrite phase_inv' by auto|]; ring.
Qed.
(** A pattern from which to_pauliflow extracts a Pauli flow is deterministic and
    implements its open graph, if no X-correction targets an input; the flow is
    well-formed and has the corrections of the pattern *)
Theorem C46_pattern_pauliflow : forall it p es f xz, iter_ok it -> pat_ok p -> sem_ok (p_seq p) = true -> edges_of p es ->
  pat_to_pauliflow it p es = Ok f -> pat_to_xz it p es = Ok xz -> no_input_x xz ->
  pf_og f = xz_og xz /\ og_in (pf_og f) = p_in p /\ og_out (pf_og f) = p_out p /\ pf_check it f = Ok tt /\ deterministic p /\ implements p (pf_og f) /\
  exists xz', pf_to_xz it f = Ok xz' /\ same_corr xz xz' /\ forall order q, xz_to_pattern it xz' order = Ok q -> same_map p q.
Proof.
  intros it p es f xz Hit PO SO EO E X NX. pose proof (pat_xz it p es xz Hit PO SO EO X) as F. unfold pat_to_pauliflow in E. rewrite X in E. cbn [rbind] in E.
  destruct (to_pauliflow_spec it Hit xz (pxf_og _ _ _ F) (pxf_order _ _ _ F) (respects_of _ _ _ F) NX) as [(f' & E' & E1 & E2 & ND & PF & FC)|[E' _]]; [|congruence].
  rewrite E in E'. injection E' as <-. assert (Hf : og_ok (pf_og f)) by (rewrite E1; apply F).
  assert (PF' : pauli_flow (pf_og f) (pf_cf f) (pf_layers f)) by (rewrite E1, E2; auto). assert (D : deterministic p).
  { destruct (pxf_sem _ _ _ F) as (order & OC & S).
    intros o o'. assert (QQ : exists q, xz_to_pattern it xz (Some order) = Ok q \/ (xz_to_pattern it xz None = Ok q)).
    { destruct (det_yields it _ _ _ xz Hit (pxf_og _ _ _ F) (pxf_simple _ _ _ F) PF FC) as ((q & Q) & _). eauto. }
    destruct (flow_pattern_map it Hit (xz_og xz) (pxf_og _ _ _ F) (pxf_simple _ _ _ F) (pf_cf f) (xz_layers xz) PF xz FC order OC o) as (c & Hc & H).
    destruct (flow_pattern_map it Hit (xz_og xz) (pxf_og _ _ _ F) (pxf_simple _ _ _ F) (pf_cf f) (xz_layers xz) PF xz FC order OC o') as (c' & Hc' & H').
    destruct (S o) as (d & Hd & G), (S o') as (d' & Hd' & G'). exists (d * c * Cconj c' * Cconj d')%C.
    split; [repeat apply phase_mul; auto; apply phase_conj; auto|]. intros psi Hp.
    assert (Hq : forall n, In n (it (sdiff (og_nodes (xz_og xz)) (of_list (og_in (xz_og xz))))) -> indep n psi).
    { intros n Hn. apply Hp, (pxf_prep _ _ _ F). apply iter_In in Hn; auto. unfold og_nodes in Hn. rewrite mem_sdiff, andb_true_iff, negb_true_iff, <- not_true_iff_false, !mem_of_list in Hn. auto. }
    rewrite G, G', H, H' by auto. rewrite !cscale_cscale. f_equal.
    transitivity (d * c * ((Cconj c' * c') * (Cconj d' * d')))%C; [|ring]. rewrite !phase_inv' by auto. ring. }
  split; auto. rewrite E1. split; [apply F|]. split; [apply F|]. split; [destruct (pf_check_decides it Hit f Hf ND) as [[K _]|[_ K]]; auto; tauto|]. split; auto.
  pose proof (det_implements it p xz Hit F D) as IM. split; auto. destruct (pf_to_xz_corr it Hit f (pfl_order _ _ _ PF') (pfl_cf _ _ _ PF')) as (xz' & X' & FC'). exists xz'. split; auto. rewrite E1, E2 in FC'. split.
  { eapply flow_corr_same; try exact FC; try exact FC'; auto; try apply PF; apply F. }
  intros order q Q. destruct (det_yields it _ _ _ xz' Hit (pxf_og _ _ _ F) (pxf_simple _ _ _ F) PF FC') as (_ & _ & Y). destruct (Y order q Q) as (_ & _ & _ & _ & IQ). apply (implements_same it p q xz _ F eq_refl); auto.
Qed.
Print Assumptions C46_pattern_pauliflow.
(** The documented round trip: if a flow is extracted from a deterministic
    pattern, every pattern generated from that flow computes the same map *)
Lemma downcast_planar xz xz' : og_ok (xz_og xz) -> xz_downcast xz = Ok xz' -> xz' = xz /\ planar (xz_og xz).
Proof. unfold xz_downcast. intros H. destruct (forallb _ _) eqn:B; [|discriminate]. intros [= <-]. split; auto. apply bloch_planar; auto. Qed.
Theorem C46_chain_causalflow : forall it p es f, iter_ok it -> pat_ok p -> sem_ok (p_seq p) = true -> edges_of p es -> deterministic p ->
  pat_to_causalflow it p es = Ok f ->
  cf_check it f = Ok tt /\ exists xz', cf_to_xz f = Ok xz' /\ (exists q, xz_to_pattern it xz' None = Ok q) /\
  forall order q, xz_to_pattern it xz' order = Ok q -> p_in q = p_in p /\ p_out q = p_out p /\ check_runnability q = Ok tt /\ deterministic q /\ same_map p q.
Proof.
  intros it p es f Hit PO SO EO D E. unfold pat_to_causalflow in E. destruct (pat_to_xz it p es) as [xz|e] eqn:X; cbn [rbind] in E; [|discriminate].
  pose proof (pat_xz it p es xz Hit PO SO EO X) as F. destruct (xz_downcast xz) as [xz1|] eqn:DC; cbn [rbind] in E; [|discriminate]. apply (downcast_planar xz xz1 (pxf_og _ _ _ F)) in DC. destruct DC as [-> HP].
  destruct (C46_to_causalflow it xz Hit (pxf_og _ _ _ F) HP (pxf_nx _ _ _ F) (pxf_keys _ _ _ F)) as [(f' & xz' & E' & (E1 & E2 & ND) & CK & X' & _)|[E' _]]; [|congruence].
  rewrite E in E'. injection E' as <-. split; auto. exists xz'. split; auto.
  destruct (C18_causal_flow_deterministic it f Hit) as (xz'' & X'' & (q & Q) & _ & Y); rewrite ?E1; auto; try apply F. rewrite X' in X''. injection X'' as <-. split; [eauto|].
  intros order q' Q'. destruct (Y order q' Q') as (A & B & C & DD & IM). rewrite E1 in A, B, IM. rewrite (pxf_in _ _ _ F) in A. rewrite (pxf_out _ _ _ F) in B. split; auto. split; auto. split; auto. split; auto.
  apply (implements_same it p q' xz _ F eq_refl); auto. eapply det_implements; eauto.
Qed.
Print Assumptions C46_chain_causalflow.
Theorem C46_chain_gflow : forall it p es f, iter_ok it -> pat_ok p -> sem_ok (p_seq p) = true -> edges_of p es -> deterministic p ->
  pat_to_gflow it p es = Ok f ->
  gf_check it f = Ok tt /\ exists xz', gf_to_xz f = Ok xz' /\ (exists q, xz_to_pattern it xz' None = Ok q) /\
  forall order q, xz_to_pattern it xz' order = Ok q -> p_in q = p_in p /\ p_out q = p_out p /\ check_runnability q = Ok tt /\ deterministic q /\ same_map p q.
Proof.
  intros it p es f Hit PO SO EO D E. unfold pat_to_gflow in E. destruct (pat_to_xz it p es) as [xz|e] eqn:X; cbn [rbind] in E; [|discriminate].
  pose proof (pat_xz it p es xz Hit PO SO EO X) as F. destruct (xz_downcast xz) as [xz1|] eqn:DC; cbn [rbind] in E; [|discriminate]. apply (downcast_planar xz xz1 (pxf_og _ _ _ F)) in DC. destruct DC as [-> HP].
  destruct (C46_to_gflow it xz Hit (pxf_og _ _ _ F) HP) as [(f' & xz' & E' & (E1 & E2 & ND) & CK & X' & _)|[E' _]]; [|congruence].
  rewrite E in E'. injection E' as <-. split; auto. exists xz'. split; auto.
  destruct (C18_gflow_deterministic it f Hit) as (xz'' & X'' & (q & Q) & _ & Y); rewrite ?E1; auto; try apply F. rewrite X' in X''. injection X'' as <-. split; [eauto|].
  intros order q' Q'. destruct (Y order q' Q') as (A & B & C & DD & IM). rewrite E1 in A, B, IM. rewrite (pxf_in _ _ _ F) in A. rewrite (pxf_out _ _ _ F) in B. split; auto. split; auto. split; auto. split; auto.
  apply (implements_same it p q' xz _ F eq_refl); auto. eapply det_implements; eauto.
Qed.
Print Assumptions C46_chain_gflow.

(** causal flows and gflows are recovered exactly from their corrections *)
Lemma dset_ne_keys d k s : NoDup (dkeys d) -> NoDup (dkeys (dset_ne d k s)) /\ forall u, In u (dkeys (dset_ne d k s)) -> u = k \/ In u (dkeys d).
Proof. intros H. unfold dset_ne. destruct (is_empty s); auto. split; [apply dset_NoDup; auto|]. intros u Hu. apply dkeys_dset in Hu; auto. Qed.
Lemma cf_to_xz_keys f xz : cf_to_xz f = Ok xz -> NoDup (dkeys (xz_x xz)) /\ NoDup (dkeys (xz_z xz)) /\ forall u, In u (dkeys (xz_x xz)) \/ In u (dkeys (xz_z xz)) -> In u (dkeys (pf_cf f)).
Proof.
  unfold cf_to_xz. intros E.
  assert (G : forall l st st', rfold (fun (st : dict nset * dict nset) p => do nb <- og_neighbors (pf_og f) (snd p); Ok (dset_ne (fst st) (fst p) (snd p), dset_ne (snd st) (fst p) (sremove (fst p) nb))) l st = Ok st' ->
    NoDup (dkeys (fst st)) -> NoDup (dkeys (snd st)) -> NoDup (dkeys (fst st')) /\ NoDup (dkeys (snd st')) /\ forall u, In u (dkeys (fst st')) \/ In u (dkeys (snd st')) -> In u (map fst l) \/ In u (dkeys (fst st)) \/ In u (dkeys (snd st))).
  { induction l as [|[k s] l IH]; intros st st'; cbn [rfold fst snd map].
    - intros [= <-] A B. split; auto.
    - destruct (og_neighbors (pf_og f) s) as [nb|]; cbn [rbind]; [|discriminate]. intros H A B. destruct (dset_ne_keys (fst st) k s A) as [A1 A2], (dset_ne_keys (snd st) k (sremove k nb) B) as [B1 B2].
      destruct (IH _ _ H A1 B1) as (X & Y & Z). split; auto. split; auto. intros u Hu. destruct (Z u Hu) as [K|[K|K]]; cbn [In]; auto; cbn [fst snd] in K; [apply A2 in K|apply B2 in K]; intuition. }
  match type of E with rbind ?r _ = _ => destruct r as [st|] eqn:R end; cbn [rbind] in E; [|discriminate]. injection E as <-. cbn [xz_x xz_z]. destruct (G _ _ _ R (NoDup_nil _) (NoDup_nil _)) as (A & B & C). split; auto. split; auto.
  intros u Hu. apply C in Hu. cbn in Hu. tauto.
Qed.
Theorem C46_causalflow_round_trip : forall it f, iter_ok it -> og_ok (pf_og f) -> planar (pf_og f) -> NoDup (dkeys (pf_cf f)) -> cf_check it f = Ok tt ->
  exists xz f', cf_to_xz f = Ok xz /\ xz_to_causalflow it xz = Ok f' /\ flow_over xz f' /\ forall u, dget (pf_cf f') u = dget (pf_cf f) u.
Proof.
  intros it f Hit Hog HP ND CK. destruct (cf_check_decides it Hit f Hog ND HP) as [[_ CF]|[K _]]; [|congruence].
  destruct (cf_to_xz_corr f ND CF) as (xz & X & FC). pose proof FC as (E1 & E2 & K). destruct (cf_to_xz_keys f xz X) as (NX & NZ & KK). exists xz.
  destruct (C46_to_causalflow it xz Hit) as [(f' & xz' & A & B & _ & _ & _ & U)|[A N]]; rewrite ?E1; auto.
  - intros u Hu. apply KK in Hu. apply (cf_dom _ _ (cfl_cf _ _ _ CF)). apply dget_keys; auto.
  - exists f'. split; auto. split; auto. split; auto. intros u. symmetry. apply (U f xz); auto; [split; auto|]. intros v _; auto.
  - exfalso. apply (N f xz); auto; [split; auto|]. intros v _; auto.
Qed.
Print Assumptions C46_causalflow_round_trip.
Theorem C46_gflow_round_trip : forall it f, iter_ok it -> og_ok (pf_og f) -> planar (pf_og f) -> NoDup (dkeys (pf_cf f)) -> gf_check it f = Ok tt ->
  exists xz f', gf_to_xz f = Ok xz /\ xz_to_gflow it xz = Ok f' /\ flow_over xz f' /\ forall u, dget (pf_cf f') u = dget (pf_cf f) u.
Proof.
  intros it f Hit Hog HP ND CK. destruct (gf_check_decides it Hit f Hog ND HP) as [[_ CF]|[K _]]; [|congruence].
  destruct (gf_to_xz_corr f ND CF) as (xz & X & FC). pose proof FC as (E1 & E2 & K). exists xz.
  destruct (C46_to_gflow it xz Hit) as [(f' & xz' & A & B & _ & _ & _ & U)|[A N]]; rewrite ?E1; auto.
  - exists f'. split; auto. split; auto. split; auto. intros u. symmetry. apply (U f xz); auto; [split; auto|]. intros v _; auto.
  - exfalso. apply (N f xz); auto; [split; auto|]. intros v _; auto.
Qed.
Print Assumptions C46_gflow_round_trip.

(** *** Non-vacuity *)
(** a Pauli flow with an anachronical correction: the X-measured node 1 is in the
    correction set of 0 and in the same layer *)
Example ex46_anachronical a : exists xz f', pf_to_xz elems (line_pf a) = Ok xz /\ xz_x xz = [(1, sing 2)] /\ xz_to_pauliflow elems xz = Ok f' /\ dget (pf_cf f') 0 = Some (sing 1).
Proof. eexists _, _. split; [vm_compute; reflexivity|]. split; [vm_compute; reflexivity|]. split; vm_compute; reflexivity. Qed.
Definition line_pat (ma mb : measurement) : pattern :=
  Pat [0] [CN 1 SPlus; CE 0 1; CM 0 ma sempty sempty; CX 1 (sing 0); CN 2 SPlus; CE 1 2; CM 1 mb sempty sempty; CX 2 (sing 1); CC 2 gH] [2] 3.
Lemma line_pat_ok ma mb : pat_ok (line_pat ma mb) /\ sem_ok (p_seq (line_pat ma mb)) = true.
Proof. split; auto. split; [repeat constructor; cbn; tauto|]; unfold pat_wf; vm_compute; apply Permutation_refl. Qed.
Lemma line_pat_edges ma mb : edges_of (line_pat ma mb) [(0, 1); (1, 2)].
Proof. intros st H; vm_compute in H; injection H as <-; unfold edge_enum; vm_compute; repeat constructor. Qed.
(** a Bloch and a Pauli measurement: to_causalflow raises TypeError, to_pauliflow succeeds *)
Example line_pat_pauli a : exists f xz, pat_to_causalflow elems (line_pat (MBloch a PXY) (MPauli AY Plus)) [(0, 1); (1, 2)] = Err EType /\
  pat_to_pauliflow elems (line_pat (MBloch a PXY) (MPauli AY Plus)) [(0, 1); (1, 2)] = Ok f /\
  pat_to_xz elems (line_pat (MBloch a PXY) (MPauli AY Plus)) [(0, 1); (1, 2)] = Ok xz /\ no_input_x xz /\ length (pf_cf f) = 2.
Proof.
  eexists _, _. split; [vm_compute; reflexivity|]. split; [vm_compute; reflexivity|]. split; [vm_compute; reflexivity|]. split; [|reflexivity].
  intros u v Hu Hv Hi. cbn in Hu, Hi. destruct Hi as [<-|[]]. destruct Hu as [<-|[<-|[]]]; vm_compute in Hv; discriminate.
Qed.
Example line_pat_causal a b : deterministic (line_pat (MBloch a PXY) (MBloch b PXY)) /\
  (exists f, pat_to_causalflow elems (line_pat (MBloch a PXY) (MBloch b PXY)) [(0, 1); (1, 2)] = Ok f) /\ (exists f, pat_to_gflow elems (line_pat (MBloch a PXY) (MBloch b PXY)) [(0, 1); (1, 2)] = Ok f).
Proof.
  set (p := line_pat (MBloch a PXY) (MBloch b PXY)). split; [|split; eexists; vm_compute; reflexivity].
  assert (X : exists f xz, pat_to_pauliflow elems p [(0, 1); (1, 2)] = Ok f /\ pat_to_xz elems p [(0, 1); (1, 2)] = Ok xz /\ no_input_x xz).
  { eexists _, _. split; [vm_compute; reflexivity|]. split; [vm_compute; reflexivity|]. intros u v Hu Hv Hi. cbn in Hu, Hi. destruct Hi as [<-|[]]. destruct Hu as [<-|[<-|[]]]; vm_compute in Hv; discriminate. }
  destruct X as (f & xz & X1 & X2 & X3). destruct (line_pat_ok (MBloch a PXY) (MBloch b PXY)) as [P S]. apply (C46_pattern_pauliflow elems p _ f xz iter_elems P S (line_pat_edges _ _) X1 X2 X3).
Qed.

(** *** What does not hold *)
(** An X-correction on an input: to_pauliflow returns, without error, a flow
    that is rejected by check_well_formed; the pattern is not deterministic *)
Definition inx_pat (a : R) : pattern := Pat [0; 1] [CE 0 1; CM 0 (MBloch a PXY) sempty sempty; CX 1 (sing 0)] [1] 2.
Theorem C46_input_x_refuted : forall a, pat_ok (inx_pat a) /\ check_runnability (inx_pat a) = Ok tt /\
  exists f, pat_to_pauliflow elems (inx_pat a) [(0, 1)] = Ok f /\ pf_check elems f = Err EFlow /\ ~ deterministic (inx_pat a).
Proof.
  intros a. split; [|split; [reflexivity|]].
  - split; [apply ndb_spec; reflexivity|]. unfold pat_wf; vm_compute; apply Permutation_refl.
  - eexists. split; [vm_compute; reflexivity|]. split; [vm_compute; reflexivity|]. intros D.
    pose proof (C18_equal_probability (inx_pat a) (fun f => if f 0 || f 1 then C0 else C1) (fun _ => false) (fun _ => true) D) as E.
    specialize (E ltac:(intros n (st & [H|[H|[H|[]]]]); discriminate) (fun n => (n =? 1)%nat)).
    assert (E0 : seq_ops (fun _ => false) (p_seq (inx_pat a)) = [OCz 0 1; OMeas (mvec (MBloch a PXY) false) 0]) by reflexivity.
    assert (E1 : seq_ops (fun _ => true) (p_seq (inx_pat a)) = [OCz 0 1; OMeas (mvec (MBloch a PXY) true) 0; OApp1 mX 1]) by reflexivity.
    rewrite E0, E1 in E. unfold mvec, to_bloch, planar_state in E. revert E. generalize (RtoC (/ sqrt 2) * cis (a + b2R false))%C, (RtoC (/ sqrt 2) * cis (a + b2R true))%C. intros w w' E.
    assert (N : (/ sqrt 2 <> 0)%R) by (apply Rinv_neq_0_compat; intros K; pose proof (sqrt_lt_R0 2 ltac:(lra)); lra).
    apply N. revert E. unfold Cnorm2. cbn. intros E. nra.
Qed.
Print Assumptions C46_input_x_refuted.
(** to_causalflow and to_gflow ignore the Z-corrections: a pattern without the
    Z-correction on node 2 is accepted; it is not deterministic and the flow has
    other corrections than the pattern *)
Definition noz_pat (a : R) : pattern := Pat [0; 2] [CN 1 SPlus; CE 0 1; CE 1 2; CM 0 (MBloch a PXY) sempty sempty; CX 1 (sing 0)] [1; 2] 3.
Theorem C46_missing_z_refuted : forall a, pat_ok (noz_pat a) /\ sem_ok (p_seq (noz_pat a)) = true /\ check_runnability (noz_pat a) = Ok tt /\ edges_of (noz_pat a) [(0, 1); (1, 2)] /\
  exists xz f, pat_to_xz elems (noz_pat a) [(0, 1); (1, 2)] = Ok xz /\ pat_to_causalflow elems (noz_pat a) [(0, 1); (1, 2)] = Ok f /\ pat_to_gflow elems (noz_pat a) [(0, 1); (1, 2)] = Ok f /\
    pat_to_pauliflow elems (noz_pat a) [(0, 1); (1, 2)] = Err EFlow /\
    (forall xz', cf_to_xz f = Ok xz' -> ~ same_corr xz xz') /\ ~ deterministic (noz_pat a).
Proof.
  intros a. split; [|split; [reflexivity|split; [reflexivity|split]]].
  - split; [apply ndb_spec; reflexivity|]. unfold pat_wf; vm_compute; repeat constructor.
  - intros st H; vm_compute in H; injection H as <-; unfold edge_enum; vm_compute; repeat constructor.
  - eexists _, _. split; [vm_compute; reflexivity|]. split; [vm_compute; reflexivity|]. split; [vm_compute; reflexivity|]. split; [vm_compute; reflexivity|]. split.
    { intros xz' H S. vm_compute in H. injection H as <-. specialize (S 0 (or_introl eq_refl)). vm_compute in S. destruct S as [_ S]. discriminate. }
    intros D. destruct (D (fun _ => false) (fun _ => true)) as (c & Hc & E). specialize (E (fun f => if f 0 then C0 else C1)).
    specialize (E ltac:(intros n (st & H) f b; cbn in H; destruct H as [[= <- <-]|[H|[H|[H|[H|[]]]]]]; try discriminate; reflexivity)).
    assert (E0 : seq_ops (fun _ => false) (p_seq (noz_pat a)) = [OPrep plus_state 1; OCz 0 1; OCz 1 2; OMeas (mvec (MBloch a PXY) false) 0]) by reflexivity.
    assert (E1 : seq_ops (fun _ => true) (p_seq (noz_pat a)) = [OPrep plus_state 1; OCz 0 1; OCz 1 2; OMeas (mvec (MBloch a PXY) true) 0; OApp1 mX 1]) by reflexivity.
    rewrite E0, E1 in E. pose proof (f_equal (fun s => s (fun _ => false)) E) as A. pose proof (f_equal (fun s => s (fun n => negb (n =? 0)%nat)) E) as B. clear E E0 E1.
    unfold mvec, to_bloch, planar_state in A, B. revert A B. generalize (RtoC (/ sqrt 2) * cis (a + b2R false))%C, (RtoC (/ sqrt 2) * cis (a + b2R true))%C. intros w w'.
    assert (EP : plus_state = Vec2 (RtoC (/ sqrt 2)) (RtoC (/ sqrt 2))). { unfold plus_state, planar_state. rewrite cis_0. f_equal. ring. } rewrite EP.
    assert (N : (/ sqrt 2 <> 0)%R) by (apply Rinv_neq_0_compat; intros K; pose proof (sqrt_lt_R0 2 ltac:(lra)); lra).
    revert N. generalize (/ sqrt 2)%R. intros r N A B. cbn in A, B.
    unfold cscale in A, B. cbn in A, B. destruct c as [cr ci], w as [wr wi], w' as [wr' wi'].
    apply (f_equal re) in A. apply (f_equal re) in B. cbn in A, B. assert (r * r <> 0)%R by (apply Rmult_integral_contrapositive_currified; auto). nra.
Qed.
Print Assumptions C46_missing_z_refuted.
