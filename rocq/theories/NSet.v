(** Finite sets of node identifiers and insertion-ordered dictionaries.

    graphix stores domains as Python [set[int]] / [frozenset[int]].  A finite
    set of natural numbers is represented by its characteristic bit mask (an
    [N]): extensionally equal sets are then equal terms, and membership is
    boolean.  Python's [^], [|], [&], [-] are [sxor], [sunion], [sinter],
    [sdiff]. *)
From Coq Require Import Arith NArith List Bool Lia Permutation.
Import ListNotations.

Definition nset := N.
Definition mem (n : nat) (s : nset) : bool := N.testbit s (N.of_nat n).
Definition sempty : nset := 0%N.
Definition sxor (s t : nset) : nset := N.lxor s t.
Definition sunion (s t : nset) : nset := N.lor s t.
Definition sinter (s t : nset) : nset := N.land s t.
Definition sdiff (s t : nset) : nset := N.ldiff s t.
Definition sing (n : nat) : nset := N.shiftl 1 (N.of_nat n).
Definition is_empty (s : nset) : bool := N.eqb s 0.
Definition seqb (s t : nset) : bool := N.eqb s t.
Definition sadd (n : nat) (s : nset) : nset := sunion (sing n) s.
Definition sremove (n : nat) (s : nset) : nset := sdiff s (sing n).
Definition sbound (s : nset) : nat := N.to_nat (N.size s).
Definition elems (s : nset) : list nat := filter (fun n => mem n s) (seq 0 (sbound s)).
Definition of_list (l : list nat) : nset := fold_right sadd sempty l.
Definition ssub (s t : nset) : bool := is_empty (sdiff s t).

Arguments mem : simpl never.
Arguments sxor : simpl never.
Arguments sunion : simpl never.
Arguments sinter : simpl never.
Arguments sdiff : simpl never.
Arguments sing : simpl never.
Arguments sadd : simpl never.
Arguments sremove : simpl never.
Arguments is_empty : simpl never.
Arguments ssub : simpl never.

Lemma nset_ext s t : (forall n, mem n s = mem n t) -> s = t.
Proof.
  intros H. apply N.bits_inj. intros k. rewrite <- (N2Nat.id k). apply H.
Qed.
Lemma mem_empty n : mem n sempty = false.
Proof. unfold mem, sempty. apply N.bits_0. Qed.
Lemma mem_sxor n s t : mem n (sxor s t) = xorb (mem n s) (mem n t).
Proof. apply N.lxor_spec. Qed.
Lemma mem_sunion n s t : mem n (sunion s t) = mem n s || mem n t.
Proof. apply N.lor_spec. Qed.
Lemma mem_sinter n s t : mem n (sinter s t) = mem n s && mem n t.
Proof. apply N.land_spec. Qed.
Lemma mem_sdiff n s t : mem n (sdiff s t) = mem n s && negb (mem n t).
Proof. apply N.ldiff_spec. Qed.
Lemma mem_sing n m : mem n (sing m) = (n =? m)%nat.
Proof.
  unfold mem, sing. rewrite N.shiftl_1_l.
  destruct (Nat.eqb_spec n m).
  - subst. apply N.pow2_bits_true.
  - apply N.pow2_bits_false. intros H. apply N2Nat.inj_iff in H. rewrite !Nat2N.id in H. congruence.
Qed.
Lemma mem_sadd n m s : mem n (sadd m s) = (n =? m)%nat || mem n s.
Proof. unfold sadd. rewrite mem_sunion, mem_sing; auto. Qed.
Lemma mem_sremove n m s : mem n (sremove m s) = mem n s && negb (n =? m)%nat.
Proof. unfold sremove. rewrite mem_sdiff, mem_sing; auto. Qed.
Lemma is_empty_spec s : is_empty s = true <-> s = sempty.
Proof. apply N.eqb_eq. Qed.
Lemma is_empty_mem s : is_empty s = true -> forall n, mem n s = false.
Proof. intros H n. apply is_empty_spec in H; subst. apply mem_empty. Qed.
Lemma is_empty_false s : is_empty s = false -> s <> sempty.
Proof. intros H E; subst; discriminate. Qed.
Lemma mem_bound n s : mem n s = true -> n < sbound s.
Proof.
  intros H. unfold mem in H. unfold sbound.
  destruct (N.eq_dec s 0) as [->|Hs]; [rewrite N.bits_0 in H; discriminate|].
  rewrite (N.size_log2 _ Hs).
  destruct (Nat.lt_ge_cases n (N.to_nat (N.succ (N.log2 s)))) as [|Hge]; auto.
  rewrite N.bits_above_log2 in H; [discriminate|]. lia.
Qed.
Lemma elems_spec n s : In n (elems s) <-> mem n s = true.
Proof.
  unfold elems. rewrite filter_In, in_seq. split; [tauto|].
  intros H; split; auto. apply mem_bound in H; lia.
Qed.
Lemma elems_NoDup s : NoDup (elems s).
Proof. apply NoDup_filter, seq_NoDup. Qed.
Lemma mem_of_list n l : mem n (of_list l) = true <-> In n l.
Proof.
  induction l as [|a l IH]; simpl.
  - rewrite mem_empty; split; [discriminate|tauto].
  - rewrite mem_sadd, orb_true_iff, IH, Nat.eqb_eq. split; intros [H|H]; auto.
Qed.
Lemma ssub_spec s t : ssub s t = true <-> (forall n, mem n s = true -> mem n t = true).
Proof.
  unfold ssub. rewrite is_empty_spec. split.
  - intros H n Hn. assert (E : mem n (sdiff s t) = false) by (rewrite H; apply mem_empty).
    rewrite mem_sdiff, Hn in E. destruct (mem n t); auto.
  - intros H. apply nset_ext; intros n. rewrite mem_sdiff, mem_empty.
    specialize (H n). destruct (mem n s); auto. rewrite H; auto.
Qed.

#[export] Hint Rewrite mem_empty mem_sxor mem_sunion mem_sinter mem_sdiff mem_sing mem_sadd mem_sremove : nset.
(** decide an equation between set expressions, pointwise and by cases *)
Ltac nset_eq :=
  apply nset_ext; let k := fresh "k" in intros k; autorewrite with nset;
  repeat match goal with |- context [mem k ?s] => destruct (mem k s) eqn:? end;
  repeat match goal with |- context [Nat.eqb ?a ?b] => destruct (Nat.eqb_spec a b) end;
  simpl; try reflexivity; try congruence.

Lemma sxor_comm s t : sxor s t = sxor t s.
Proof. apply N.lxor_comm. Qed.
Lemma sxor_assoc s t u : sxor (sxor s t) u = sxor s (sxor t u).
Proof. apply N.lxor_assoc. Qed.
Lemma sxor_0_r s : sxor s sempty = s.
Proof. apply N.lxor_0_r. Qed.
Lemma sxor_0_l s : sxor sempty s = s.
Proof. apply N.lxor_0_l. Qed.
Lemma sxor_nilp s : sxor s s = sempty.
Proof. apply N.lxor_nilpotent. Qed.

(** * Parity of a domain under an outcome assignment *)
Definition xorsum (l : list nat) (f : nat -> bool) : bool := fold_right (fun n b => xorb (f n) b) false l.

(** Sum modulo 2 of the outcomes of the nodes of [d]
    (pretty much [sum(results[j] for j in domain) % 2]; simulator.py
    [DefaultMeasureMethod.describe_measurement], measurements.py). *)
Definition parity (o : nat -> bool) (d : nset) : bool := xorsum (elems d) o.

Lemma xorsum_app l1 l2 f : xorsum (l1 ++ l2) f = xorb (xorsum l1 f) (xorsum l2 f).
Proof.
  induction l1 as [|a l1 IH]; simpl; [destruct (xorsum l2 f); auto|].
  rewrite IH. rewrite xorb_assoc; auto.
Qed.
Lemma xorsum_ext l f g : (forall n, In n l -> f n = g n) -> xorsum l f = xorsum l g.
Proof.
  induction l as [|a l IH]; simpl; auto; intros H. rewrite (H a) by auto. rewrite IH; auto.
Qed.
Lemma xorsum_false l f : (forall n, In n l -> f n = false) -> xorsum l f = false.
Proof.
  induction l as [|a l IH]; simpl; auto; intros H. rewrite (H a) by auto. rewrite IH; auto.
Qed.
Lemma xorsum_xorb l f g : xorsum l (fun n => xorb (f n) (g n)) = xorb (xorsum l f) (xorsum l g).
Proof.
  induction l as [|a l IH]; simpl; auto. rewrite IH.
  destruct (f a), (g a), (xorsum l f), (xorsum l g); auto.
Qed.
Lemma xorsum_filter l p f : xorsum (filter p l) f = xorsum l (fun n => p n && f n).
Proof.
  induction l as [|a l IH]; simpl; auto. destruct (p a); simpl; rewrite IH; auto.
  destruct (xorsum l _); auto.
Qed.
Lemma xorsum_perm l l' f : Permutation l l' -> xorsum l f = xorsum l' f.
Proof.
  induction 1; simpl; auto; try congruence.
  rewrite <- !xorb_assoc, (xorb_comm (f y)); auto.
Qed.

Lemma parity_bound o d B : sbound d <= B -> parity o d = xorsum (seq 0 B) (fun n => mem n d && o n).
Proof.
  intros H. unfold parity, elems. rewrite xorsum_filter.
  replace B with (sbound d + (B - sbound d)) by lia. rewrite seq_app, xorsum_app; simpl.
  rewrite (xorsum_false (seq (sbound d) _)); [destruct (xorsum _ _); auto|].
  intros n Hn. apply in_seq in Hn. destruct (mem n d) eqn:E; auto.
  apply mem_bound in E; lia.
Qed.
Lemma parity_sxor o s t : parity o (sxor s t) = xorb (parity o s) (parity o t).
Proof.
  set (B := sbound s + sbound t + sbound (sxor s t)).
  rewrite !(parity_bound o _ B) by (unfold B; lia).
  rewrite <- xorsum_xorb. apply xorsum_ext; intros n _. rewrite mem_sxor.
  destruct (mem n s), (mem n t), (o n); auto.
Qed.
Lemma parity_empty o : parity o sempty = false.
Proof. reflexivity. Qed.
Lemma parity_ext o o' d : (forall n, mem n d = true -> o n = o' n) -> parity o d = parity o' d.
Proof. intros H. apply xorsum_ext; intros n Hn; apply H, elems_spec; auto. Qed.
Lemma parity_xor_o o o' d : parity (fun n => xorb (o n) (o' n)) d = xorb (parity o d) (parity o' d).
Proof. apply xorsum_xorb. Qed.
Lemma parity_sing o n : parity o (sing n) = o n.
Proof.
  unfold parity.
  assert (P : Permutation (elems (sing n)) [n]).
  { apply NoDup_Permutation; [apply elems_NoDup|constructor; [simpl; tauto|constructor]|].
    intros x. rewrite elems_spec, mem_sing, Nat.eqb_eq; simpl. intuition. }
  rewrite (xorsum_perm _ _ _ P); simpl. destruct (o n); auto.
Qed.
(** flipping a single outcome *)
Lemma parity_flip o n d : parity (fun m => xorb (o m) (m =? n)%nat) d = xorb (parity o d) (mem n d).
Proof.
  rewrite (parity_xor_o o (fun m => (m =? n)%nat)). f_equal.
  unfold parity. destruct (mem n d) eqn:E.
  - apply elems_spec in E. apply in_split in E. destruct E as (l1 & l2 & E).
    pose proof (elems_NoDup d) as ND. rewrite E in *. apply NoDup_remove_2 in ND.
    rewrite xorsum_app; simpl. rewrite Nat.eqb_refl.
    rewrite !xorsum_false; auto; intros m Hm; apply Nat.eqb_neq; intros ->; apply ND, in_app_iff; auto.
  - apply xorsum_false. intros m Hm. apply elems_spec in Hm. apply Nat.eqb_neq; intros ->; congruence.
Qed.

(** * Insertion-ordered dictionaries (Python [dict]) *)
Section Dict.
  Context {A : Type}.
  Definition dict := list (nat * A).
  (** [d.get(k)] *)
  Fixpoint dget (d : dict) (k : nat) : option A :=
    match d with
    | [] => None
    | (k', v) :: d' => if (k' =? k)%nat then Some v else dget d' k
    end.
  (** [d[k] = v]: keeps the position of an existing key *)
  Fixpoint dset (d : dict) (k : nat) (v : A) : dict :=
    match d with
    | [] => [(k, v)]
    | (k', v') :: d' => if (k' =? k)%nat then (k, v) :: d' else (k', v') :: dset d' k v
    end.
  (** [d.pop(k, None)] *)
  Fixpoint ddel (d : dict) (k : nat) : dict :=
    match d with
    | [] => []
    | (k', v') :: d' => if (k' =? k)%nat then ddel d' k else (k', v') :: ddel d' k
    end.
  Definition dkeys (d : dict) : list nat := map fst d.

  Lemma dget_dset d k v k' : dget (dset d k v) k' = if (k =? k')%nat then Some v else dget d k'.
  Proof.
    induction d as [|[a b] d IH]; simpl; auto.
    destruct (Nat.eqb_spec a k); simpl.
    - subst. destruct (Nat.eqb_spec k k'); auto.
    - rewrite IH. destruct (Nat.eqb_spec a k'), (Nat.eqb_spec k k'); auto; congruence.
  Qed.
  Lemma dget_ddel d k k' : dget (ddel d k) k' = if (k =? k')%nat then None else dget d k'.
  Proof.
    induction d as [|[a b] d IH]; simpl; [destruct (k =? k')%nat; auto|].
    destruct (Nat.eqb_spec a k); simpl; rewrite IH.
    - subst. destruct (Nat.eqb_spec k k'); auto.
    - destruct (Nat.eqb_spec a k'), (Nat.eqb_spec k k'); auto; congruence.
  Qed.
  Lemma dkeys_dset d k v x : In x (dkeys (dset d k v)) <-> x = k \/ In x (dkeys d).
  Proof.
    unfold dkeys. induction d as [|[a b] d IH]; simpl; [intuition|].
    destruct (Nat.eqb_spec a k); simpl; [subst; intuition|]. rewrite IH. intuition.
  Qed.
  Lemma dkeys_ddel d k x : In x (dkeys (ddel d k)) <-> x <> k /\ In x (dkeys d).
  Proof.
    unfold dkeys. induction d as [|[a b] d IH]; simpl; [tauto|].
    destruct (Nat.eqb_spec a k); simpl; rewrite IH; split.
    - tauto.
    - intros [H [H1|H1]]; [congruence|tauto].
    - intros [H|H]; [subst; tauto|tauto].
    - tauto.
  Qed.
  Lemma dset_NoDup d k v : NoDup (dkeys d) -> NoDup (dkeys (dset d k v)).
  Proof.
    induction d as [|[a b] d IH]; simpl; intros H; [constructor; [simpl; tauto|constructor]|].
    inversion H; subst.
    destruct (Nat.eqb_spec a k); simpl; [subst; constructor; auto|].
    constructor; auto. rewrite dkeys_dset. intros [?|?]; auto.
  Qed.
  Lemma ddel_NoDup d k : NoDup (dkeys d) -> NoDup (dkeys (ddel d k)).
  Proof.
    induction d as [|[a b] d IH]; simpl; intros H; auto. inversion H; subst.
    destruct (Nat.eqb_spec a k); simpl; auto. constructor; auto. rewrite dkeys_ddel. tauto.
  Qed.
  Lemma dget_In d k v : dget d k = Some v -> In (k, v) d.
  Proof.
    induction d as [|[a b] d IH]; simpl; [discriminate|].
    destruct (Nat.eqb_spec a k); [intros [= ->]; subst; auto|auto].
  Qed.
  Lemma dget_None d k : dget d k = None <-> ~ In k (dkeys d).
  Proof.
    induction d as [|[a b] d IH]; simpl; [tauto|].
    destruct (Nat.eqb_spec a k); [subst; split; [discriminate|intuition]|]. rewrite IH. tauto.
  Qed.
  Lemma In_dget d k v : NoDup (dkeys d) -> In (k, v) d -> dget d k = Some v.
  Proof.
    induction d as [|[a b] d IH]; simpl; [tauto|]. intros ND [H|H].
    - inversion H; subst. rewrite Nat.eqb_refl; auto.
    - inversion ND; subst. destruct (Nat.eqb_spec a k); auto. subst. exfalso. apply H2.
      apply (in_map fst) in H; exact H.
  Qed.
  Lemma dget_keys d k : In k (dkeys d) -> exists v, dget d k = Some v.
  Proof.
    destruct (dget d k) eqn:E; eauto. intros H. apply dget_None in E. tauto.
  Qed.
  Lemma dget_is_key d k v : dget d k = Some v -> In k (dkeys d).
  Proof. intros H. apply dget_In in H. apply (in_map fst) in H; exact H. Qed.
End Dict.
Arguments dict : clear implicits.
