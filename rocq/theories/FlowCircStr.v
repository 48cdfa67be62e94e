(** The Pauli strings of circuit extraction: what they are as operators.  Proof
    infrastructure for C50. *)
From Coq Require Import Reals Lra Arith List Bool Lia Permutation FunctionalExtensionality.
From Verif Require Import Cplx Mat2 NSet QState Fundamentals Clifford Measure Layer Pattern Standardize NodeIndex OpenGraph FlowSpec Flow FlowWF Focus FlowSem GState Circuit PauliStr PauliOp Berg Ladder FlowCirc FlowCircSem.
Import ListNotations.
Local Open Scope list_scope.

Lemma out_index_inv outs : NoDup outs -> ni_inv (ni_extend ni_clear outs) /\ ni_list (ni_extend ni_clear outs) = outs.
Proof. intros ND. split; [|reflexivity]. apply ni_extend_inv; [|exact ND]. split; [constructor|]. intros n i. cbn. destruct i; split; discriminate. Qed.
Lemma out_index outs q n : NoDup outs -> nth_error outs q = Some n <-> ni_index (ni_extend ni_clear outs) n = Ok q.
Proof.
  intros ND. destruct (out_index_inv outs ND) as [[_ H] E]. unfold ni_index. rewrite <- E at 1. rewrite <- H. destruct (dget _ n); split; congruence.
Qed.
Lemma put_axis_spec outs a l : NoDup outs -> NoDup l -> (forall n, In n l -> In n outs) -> forall d, NoDup (dkeys d) -> (forall q, In q (dkeys d) -> q < length outs)%nat ->
  exists d', put_axis (ni_extend ni_clear outs) a l d = Ok d' /\ NoDup (dkeys d') /\ (forall q, In q (dkeys d') -> q < length outs)%nat /\
  forall q n, nth_error outs q = Some n -> dget d' q = if lmem n l then Some a else dget d q.
Proof.
  intros NO. induction l as [|u l IH]; intros NL HL d ND HD.
  - exists d. split; auto.
  - inversion NL as [|? ? N1 N2]; subst. destruct (In_nth_error outs u) as [k Hk]; [apply HL; left; auto|].
    assert (K : (k < length outs)%nat) by (apply nth_error_Some; congruence).
    unfold put_axis. cbn [rfold]. rewrite (proj1 (out_index outs k u NO) Hk). cbn [rbind].
    destruct (IH N2 (fun n Hn => HL n (or_intror Hn)) (dset d k a)) as (d' & E & A & B & C).
    { apply dset_NoDup; auto. }
    { intros q Hq. apply dkeys_dset in Hq. destruct Hq as [Hq|Hq]; [subst; auto|apply HD; auto]. }
    exists d'. split; [exact E|]. split; [auto|]. split; [auto|]. intros q n Hq. rewrite (C q n Hq). rewrite dget_dset. unfold lmem. cbn [existsb]. fold (lmem n l).
    destruct (lmem n l) eqn:El; [rewrite orb_true_r; auto|]. rewrite orb_false_r. destruct (Nat.eqb_spec k q) as [->|N].
    + assert (n = u) by congruence. subst. rewrite Nat.eqb_refl. auto.
    + destruct (Nat.eqb_spec n u) as [->|]; auto. exfalso. apply N. apply (NoDup_nth_inj outs k q u); auto.
Qed.
Lemma fold_xorb {A} (f : A -> bool) l b : fold_left (fun b n => xorb b (f n)) l b = xorb b (gx f l).
Proof. revert b. induction l as [|a l IH]; intros b; [cbn; rewrite xorb_false_r; auto|]. cbn [fold_left gx fold_right]. fold (gx f l). rewrite IH, xorb_assoc. auto. Qed.
Lemma gx_filter {A} (f p : A -> bool) l : gx f (filter p l) = gx (fun a => p a && f a) l.
Proof. induction l as [|a l IH]; auto. cbn [filter gx fold_right]. destruct (p a); cbn [gx fold_right andb] in *; fold (gx f (filter p l)) (gx (fun a => p a && f a) l); rewrite IH, ?xorb_false_l; auto. Qed.
Lemma elems_filter L s (p : nat -> bool) : NoDup L -> (forall n, mem n s = true -> In n L) -> (forall n, In n L -> mem n s = p n) -> Permutation (elems s) (filter p L).
Proof.
  intros ND H1 H2. apply NoDup_Permutation; [apply elems_NoDup|apply NoDup_filter; auto|]. intros n. rewrite elems_spec, filter_In. split.
  - intros H. split; [auto|]. rewrite <- H2; auto.
  - intros [A B]. rewrite H2; auto.
Qed.

(** the bits of the operator of a correction set *)
Definition sx (S : nset) (n : nat) : bool := mem n S.
Definition sz (og : opengraph) (S : nset) : nat -> bool := oddp (g_edges (og_graph og)) (sx S).
Definition yz_at (og : opengraph) (v : nat) : bool := match dget (og_meas og) v with Some (MBloch _ PYZ) => true | _ => false end.
Definition str_sign (og : opengraph) (v : nat) (S : nset) : bool :=
  xorb (xorb (xorb (Qf (g_edges (og_graph og)) (sx S)) (Nat.odd (ycount (g_nodes (og_graph og)) (sx S) (sz og S) / 2)))
    (gx (fun n => (sx S n || sz og S n) && minus_at og n) (g_nodes (og_graph og)))) (yz_at og v).
Lemma oddp_in es x n : oddp es x n = true -> exists e, In e es /\ (n = fst e \/ n = snd e).
Proof.
  induction es as [|e es IH]; cbn [oddp fold_right]; [discriminate|]. fold (oddp es x n). intros H. destruct (oddp es x n) eqn:E.
  - destruct IH as (e' & A & B); auto. exists e'. split; [right|]; auto.
  - exists e. split; [left; auto|]. rewrite xorb_false_r in H. unfold czz in H. destruct (Nat.eqb_spec n (fst e)); auto. destruct (Nat.eqb_spec n (snd e)); auto. discriminate.
Qed.
Lemma og_odd_sz og S : og_ok og -> simple (og_graph og) -> (forall n, mem n S = true -> In n (g_nodes (og_graph og))) ->
  exists r, og_odd og S = Ok r /\ forall v, mem v r = sz og S v.
Proof.
  intros OK SI HS. destruct (og_odd_nb og S HS) as (r & E & H). exists r. split; auto. intros v. apply eq_true_iff_eq. rewrite H. unfold sz, sx. symmetry. apply oddp_odd_nb; auto. apply OK.
Qed.
Lemma sz_in og S n : og_ok og -> sz og S n = true -> In n (g_nodes (og_graph og)).
Proof. intros OK H. apply oddp_in in H. destruct H as (e & A & B). destruct (ok_graph _ OK) as (_ & _ & K). destruct (K e A). destruct B; subst; auto. Qed.
Lemma extraction_ps_spec it f v S : let og := pf_og f in
  iter_ok it -> og_ok og -> simple (og_graph og) -> dget (pf_cf f) v = Some S -> (forall n, mem n S = true -> In n (g_nodes (og_graph og))) -> In v (dkeys (og_meas og)) ->
  exists p, extraction_ps it f v = Ok p /\ ps_ok p /\ ps_dim p = length (og_out og) /\
    (forall q n, nth_error (og_out og) q = Some n -> ps_x p q = sx S n /\ ps_z p q = sz og S n) /\ ps_s p = str_sign og v S.
Proof.
  intros og Hit OK SI ES HS HV. destruct (og_odd_sz og S OK SI HS) as (odd & EO & HO). unfold extraction_ps. fold og. rewrite ES. cbn [of_opt rbind]. rewrite EO. cbn [rbind].
  assert (EL : exists m, dget (og_meas og) v = Some m). { destruct (dget (og_meas og) v) eqn:E; eauto. apply dget_None in E. tauto. }
  destruct EL as (m & Em). assert (ELl : og_label og v = Ok (mlabel m)) by (unfold og_label; rewrite Em; auto). rewrite ELl. cbn [rbind].
  pose proof (proj1 (ok_out _ OK)) as NO. pose proof (ok_graph _ OK) as (NL & _ & HE).
  set (xs := sinter (sdiff S odd) (of_list (og_out og))). set (ys := sinter (sinter S odd) (of_list (og_out og))). set (zs := sinter (sdiff odd S) (of_list (og_out og))).
  assert (IN : forall s, (forall n, mem n s = true -> In n (og_out og)) -> forall n, In n (it s) -> In n (og_out og)) by (intros s H n Hn; apply H; apply (iter_In it) in Hn; auto).
  destruct (put_axis_spec (og_out og) AX (it xs) NO (iter_NoDup it _ Hit)) with (d := @nil (nat * axis)) as (d1 & E1 & A1 & B1 & C1).
  { apply IN. intros n Hn. unfold xs in Hn. rewrite mem_sinter in Hn. apply andb_true_iff in Hn. apply mem_of_list, Hn. } { constructor. } { intros q []. }
  destruct (put_axis_spec (og_out og) AY (it ys) NO (iter_NoDup it _ Hit)) with (d := d1) as (d2 & E2 & A2 & B2 & C2); auto.
  { apply IN. intros n Hn. unfold ys in Hn. rewrite mem_sinter in Hn. apply andb_true_iff in Hn. apply mem_of_list, Hn. }
  destruct (put_axis_spec (og_out og) AZ (it zs) NO (iter_NoDup it _ Hit)) with (d := d2) as (d3 & E3 & A3 & B3 & C3); auto.
  { apply IN. intros n Hn. unfold zs in Hn. rewrite mem_sinter in Hn. apply andb_true_iff in Hn. apply mem_of_list, Hn. }
  cbv zeta. rewrite E1. cbn [rbind]. rewrite E2. cbn [rbind]. rewrite E3. cbn [rbind]. eexists. split; [reflexivity|].
  split; [split; auto|]. split; [auto|]. split.
  - intros q n Hq. unfold ps_x, ps_z. cbn [ps_axes]. rewrite (C3 q n Hq), (C2 q n Hq), (C1 q n Hq).
    assert (LM : forall s, lmem n (it s) = mem n s) by (intros s; apply eq_true_iff_eq; rewrite lmem_In; apply iter_In; auto). rewrite !LM. unfold xs, ys, zs.
    rewrite !mem_sinter, !mem_sdiff, !HO. rewrite (proj2 (mem_of_list n (og_out og))) by (eapply nth_error_In; eauto). unfold sx. destruct (mem n S), (sz og S n); auto.
  - unfold ps_s. cbn [ps_sign]. 
    assert (SG : forall b, match minus_if b with Plus => false | Minus => true end = b) by (intros []; auto). rewrite SG. unfold str_sign. f_equal; [|unfold yz_at; rewrite Em; destruct m as [a []|[] []]; auto].
    rewrite fold_xorb. f_equal; [f_equal|].
    + symmetry. apply gx_odd.
    + f_equal. f_equal. unfold ycount. apply Permutation_length. apply elems_filter; auto.
      * intros n Hn. rewrite mem_sinter in Hn. apply andb_true_iff in Hn. apply HS, Hn.
      * intros n _. rewrite mem_sinter, HO. auto.
    + rewrite <- gx_filter. apply gx_perm. eapply perm_trans; [apply Hit|]. apply elems_filter; auto.
      * intros n Hn. rewrite mem_sunion in Hn. apply orb_true_iff in Hn. destruct Hn as [Hn|Hn]; [auto|]. rewrite HO in Hn. eapply sz_in; eauto.
      * intros n _. rewrite mem_sunion, HO. auto.
Qed.
