(** Layers of single-node operations: one matrix per node of a list
    (proof infrastructure for the pattern rewriting passes). *)
From Coq Require Import Reals Arith List Bool Lia FunctionalExtensionality Permutation Setoid Morphisms.
From Verif Require Import Cplx Mat2 QState NSet.
Import ListNotations.

Definition layer (L : list nat) (F : nat -> mat2) : list op := map (fun n => OApp1 (F n) n) L.
Definition fupd (F : nat -> mat2) (n : nat) (U : mat2) : nat -> mat2 := fun k => if (k =? n)%nat then U else F k.

Lemma fupd_same F n U : fupd F n U n = U.
Proof. unfold fupd; rewrite Nat.eqb_refl; auto. Qed.
Lemma fupd_other F n U k : k <> n -> fupd F n U k = F k.
Proof. unfold fupd; intros H; apply Nat.eqb_neq in H; rewrite H; auto. Qed.

Lemma layer_onodes L F p n : In p (layer L F) -> In n (onodes p) -> In n L.
Proof.
  unfold layer. rewrite in_map_iff. intros (k & <- & Hk) [<-|[]]; auto.
Qed.
Lemma layer_ext L F G : (forall n, In n L -> F n ~= G n) -> layer L F ≈ layer L G.
Proof.
  induction L as [|x L IH]; simpl; intros H; [reflexivity|].
  rewrite IH by auto. apply (leq_app_r [_] [_]). apply app1_meqp; auto.
Qed.
Lemma layer_eq L F G : (forall n, In n L -> F n = G n) -> layer L F = layer L G.
Proof. intros H. apply map_ext_in. intros; f_equal; auto. Qed.
Lemma layer_id L F : (forall n, In n L -> F n = mid) -> layer L F ≈ [].
Proof.
  induction L as [|x L IH]; simpl; intros H; [reflexivity|].
  rewrite IH by auto. rewrite H by auto. apply app1_id.
Qed.
Lemma layer_comm_notin L F p : (forall n, In n (onodes p) -> ~ In n L) -> p :: layer L F ≈ layer L F ++ [p].
Proof. intros H. apply comm1l. intros q Hq n Hn Hn'. eapply H; eauto using layer_onodes. Qed.

Lemma layer_split_notin L F x U : ~ In x L -> layer L (fupd F x U) = layer L F.
Proof. intros H; apply layer_eq. intros n Hn. apply fupd_other. intros ->; auto. Qed.

(** take the operation of node [n] out of the layer, on either side *)
Lemma layer_split_l L F n : NoDup L -> In n L -> layer L F ≈ OApp1 (F n) n :: layer L (fupd F n mid).
Proof.
  induction L as [|x L IH]; simpl; [tauto|]. intros ND Hin. inversion ND as [|? ? Hx HL]; subst.
  destruct (Nat.eq_dec x n) as [->|Hne].
  - rewrite layer_split_notin by auto. rewrite fupd_same.
    apply leq_cons. rewrite <- (app_nil_l (layer L F)) at 1.
    change (OApp1 mid n :: layer L F) with ([OApp1 mid n] ++ layer L F).
    apply leq_app_r. symmetry; apply app1_id.
  - destruct Hin as [|Hin]; [congruence|]. rewrite (IH HL Hin) at 1.
    rewrite (fupd_other F n mid x) by auto.
    apply (leq_app_r [OApp1 (F x) x; OApp1 (F n) n] [OApp1 (F n) n; OApp1 (F x) x]).
    apply comm2. intros k [<-|[]] [<-|[]]; auto.
Qed.
Lemma layer_fupd_id_comm L F n p : onodes p = [n] -> (forall k, In k L -> k = n -> F k = mid) ->
  p :: layer L F ≈ layer L F ++ [p].
Proof.
  intros Hp. induction L as [|x L IH]; simpl; intros H; [reflexivity|].
  destruct (Nat.eq_dec x n) as [->|Hne].
  - rewrite (H n) by auto.
    assert (E : [OApp1 mid n] ++ layer L F ≈ layer L F) by (rewrite app1_id; reflexivity).
    change (p :: [OApp1 mid n] ++ layer L F ≈ ([OApp1 mid n] ++ layer L F) ++ [p]).
    rewrite E. apply IH; auto.
  - transitivity (OApp1 (F x) x :: p :: layer L F).
    + apply (leq_app_r [p; OApp1 (F x) x] [OApp1 (F x) x; p]). apply comm2.
      intros k. rewrite Hp. intros [<-|[]] [<-|[]]; auto.
    + apply leq_cons, IH; auto.
Qed.
(** an operation commutes with a layer that is the identity on its nodes *)
Lemma layer_comm L F p : (forall k, In k L -> In k (onodes p) -> F k = mid) -> p :: layer L F ≈ layer L F ++ [p].
Proof.
  induction L as [|x L IH]; simpl; intros H; [reflexivity|].
  destruct (in_dec Nat.eq_dec x (onodes p)) as [Hi|Hi].
  - rewrite (H x) by auto.
    assert (E : [OApp1 mid x] ++ layer L F ≈ layer L F) by (rewrite app1_id; reflexivity).
    change (p :: [OApp1 mid x] ++ layer L F ≈ ([OApp1 mid x] ++ layer L F) ++ [p]).
    rewrite E. apply IH; auto.
  - transitivity (OApp1 (F x) x :: p :: layer L F).
    + apply (leq_app_r [p; OApp1 (F x) x] [OApp1 (F x) x; p]). apply comm2.
      intros k Hk [<-|[]]; auto.
    + apply leq_cons, IH; auto.
Qed.
Lemma layer_split_r L F n : NoDup L -> In n L -> layer L F ≈ layer L (fupd F n mid) ++ [OApp1 (F n) n].
Proof.
  intros ND H. rewrite (layer_split_l L F n) by auto. apply layer_comm.
  intros k Hk [<-|[]]. apply fupd_same.
Qed.
Lemma layer_absorb_r L F n U : NoDup L -> In n L -> layer L F ++ [OApp1 U n] ≈ layer L (fupd F n (mmul U (F n))).
Proof.
  intros ND H. rewrite (layer_split_r L F n) by auto.
  rewrite (layer_split_r L (fupd F n (mmul U (F n))) n) by auto.
  rewrite <- app_assoc. cbn [app]. rewrite app1_fuse. rewrite fupd_same.
  erewrite layer_eq; [reflexivity|]. intros k _. unfold fupd. destruct (k =? n)%nat; auto.
Qed.
Lemma layer_absorb_l L F n U : NoDup L -> In n L -> OApp1 U n :: layer L F ≈ layer L (fupd F n (mmul (F n) U)).
Proof.
  intros ND H. rewrite (layer_split_l L F n) by auto.
  rewrite (layer_split_l L (fupd F n (mmul (F n) U)) n) by auto.
  change (OApp1 U n :: OApp1 (F n) n :: ?l) with ([OApp1 U n; OApp1 (F n) n] ++ l).
  rewrite (leq_app_r _ _ _ (app1_fuse U (F n) n)). rewrite fupd_same. cbn [app].
  apply leq_cons. erewrite layer_eq; [reflexivity|]. intros k _. unfold fupd. destruct (k =? n)%nat; auto.
Qed.
Lemma layer_fuse L F G : NoDup L -> layer L F ++ layer L G ≈ layer L (fun n => mmul (G n) (F n)).
Proof.
  induction L as [|x L IH]; simpl; intros ND; [reflexivity|]. inversion ND as [|? ? Hx HL]; subst.
  transitivity (OApp1 (F x) x :: OApp1 (G x) x :: layer L F ++ layer L G).
  - apply leq_cons.
    change (OApp1 (G x) x :: layer L F ++ layer L G) with ((OApp1 (G x) x :: layer L F) ++ layer L G).
    rewrite (layer_comm_notin L F (OApp1 (G x) x)).
    + rewrite <- app_assoc. reflexivity.
    + intros n [<-|[]]; auto.
  - rewrite IH by auto. apply (leq_app_r [_;_] [_]). apply app1_fuse.
Qed.
Lemma layer_perm L L' F : NoDup L -> Permutation L L' -> layer L F ≈ layer L' F.
Proof.
  intros ND P. apply leq_den. apply den_comm_perm; [apply Permutation_map; auto|].
  intros p q psi Hp Hq. unfold layer in *. apply in_map_iff in Hp, Hq.
  destruct Hp as (a & <- & Ha), Hq as (b & <- & Hb).
  destruct (Nat.eq_dec a b) as [->|Hne]; [reflexivity|].
  apply op_comm. intros k [<-|[]] [<-|[]]; auto.
Qed.
Lemma NoDup_app {A} (a b : list A) : NoDup a -> NoDup b -> (forall x, In x a -> ~ In x b) -> NoDup (a ++ b).
Proof.
  induction a as [|x a IH]; simpl; auto. intros Ha Hb H. inversion Ha; subst. constructor.
  - rewrite in_app_iff. intros [Q|Q]; [auto|eapply H; eauto].
  - apply IH; auto.
Qed.
(** nodes on which the layer is the identity can be added or dropped *)
Lemma layer_weaken L L' F : NoDup L -> NoDup L' -> (forall n, In n L -> In n L') ->
  (forall n, In n L' -> ~ In n L -> F n = mid) -> layer L F ≈ layer L' F.
Proof.
  intros ND ND' Hsub Hid.
  set (p := fun n => negb (if in_dec Nat.eq_dec n L then true else false)).
  assert (P : Permutation L' (L ++ filter p L')).
  { apply NoDup_Permutation; auto.
    - apply NoDup_app; auto using NoDup_filter. intros x Hx. rewrite filter_In. unfold p.
      destruct (in_dec Nat.eq_dec x L); simpl; [|contradiction]. intros [_ Q]; discriminate.
    - intros x. rewrite in_app_iff, filter_In. unfold p.
      destruct (in_dec Nat.eq_dec x L); simpl; intuition. }
  rewrite (layer_perm L' _ F ND' P). unfold layer at 2. rewrite map_app. fold (layer L F).
  fold (layer (filter p L') F).
  rewrite (layer_id (filter p L') F); [rewrite app_nil_r; reflexivity|].
  intros n Hn. apply filter_In in Hn. destruct Hn as [H1 H2]. apply Hid; auto.
  unfold p in H2. destruct (in_dec Nat.eq_dec n L); simpl in H2; congruence.
Qed.

(** the operations of a dictionary of nodes form a layer *)
Definition dval {A} (U : A -> mat2) (d : dict A) (n : nat) : mat2 := match dget d n with Some a => U a | None => mid end.
Definition dops {A} (U : A -> mat2) (d : dict A) : list op := map (fun p => OApp1 (U (snd p)) (fst p)) d.
Lemma dops_keys {A} (U : A -> mat2) d : NoDup (dkeys d) -> dops U d = layer (dkeys d) (dval U d).
Proof.
  intros ND. unfold dops, layer, dkeys. rewrite map_map. apply map_ext_in. intros [k a] Hin. simpl.
  unfold dval. rewrite (In_dget d k a); auto.
Qed.
Lemma dops_layer {A} (U : A -> mat2) d L : NoDup (dkeys d) -> NoDup L -> (forall n, In n (dkeys d) -> In n L) ->
  dops U d ≈ layer L (dval U d).
Proof.
  intros ND NL H. rewrite dops_keys by auto. apply layer_weaken; auto.
  intros n _ Hn. unfold dval. apply dget_None in Hn. rewrite Hn; auto.
Qed.
