(** Model of NodeIndex (graphix/sim/base_backend.py:216-319): the map between
    node labels and qubit indices kept by the simulator backends.
    Simplification: indices are non-negative (Python's negative indices are not
    modelled). *)
From Coq Require Import Arith List Bool Lia Permutation.
From Verif Require Import NSet Pattern.
Import ListNotations.

(** base_backend.py:228-229 the two private fields *)
Record nindex := NI { ni_dict : dict nat; ni_list : list nat }.
(** base_backend.py:318-321 clear, also __init__ (231-233) *)
Definition ni_clear : nindex := NI [] [].
(** base_backend.py:235-248 __getitem__ *)
Definition ni_getitem (s : nindex) (i : nat) : res nat :=
  match nth_error (ni_list s) i with Some n => Ok n | None => Err EIndex end.
(** base_backend.py:250-263 index *)
Definition ni_index (s : nindex) (n : nat) : res nat :=
  match dget (ni_dict s) n with Some i => Ok i | None => Err EKey end.
(** the loop [for index, node in enumerate(..., start=b): dict[node] = index] *)
Fixpoint ni_enum (b : nat) (us : list nat) (d : dict nat) : dict nat :=
  match us with [] => d | u :: us' => ni_enum (S b) us' (dset d u b) end.
(** base_backend.py:273-287 extend *)
Definition ni_extend (s : nindex) (us : list nat) : nindex :=
  let base := length (ni_list s) in
  let l := ni_list s ++ us in
  NI (ni_enum base (skipn base l) (ni_dict s)) l.
(** del self.__list[i] *)
Definition ldel {A} (i : nat) (l : list A) : list A := firstn i l ++ skipn (S i) l.
(** base_backend.py:289-301 remove *)
Definition ni_remove (s : nindex) (n : nat) : res nindex :=
  match dget (ni_dict s) n with
  | None => Err EKey
  | Some i => if i <? length (ni_list s) then
      let l := ldel i (ni_list s) in
      Ok (NI (ni_enum i (skipn i l) (ddel (ni_dict s) n)) l)
      else Err EIndex
  end.
(** self.__list[i] = n *)
Definition lset {A} (i : nat) (a : A) (l : list A) : list A := firstn i l ++ a :: skipn (S i) l.
(** base_backend.py:303-314 swap *)
Definition ni_swap (s : nindex) (i j : nat) : res nindex :=
  match nth_error (ni_list s) i, nth_error (ni_list s) j with
  | Some ni, Some nj => Ok (NI (dset (dset (ni_dict s) ni j) nj i) (lset j ni (lset i nj (ni_list s))))
  | _, _ => Err EIndex
  end.

(** * Histories *)
Inductive niop := OpExtend (us : list nat) | OpRemove (n : nat) | OpSwap (i j : nat) | OpClear.
(** an operation that raises leaves the object unchanged (all reads that may
    raise precede the writes) *)
Definition ni_step (s : nindex) (o : niop) : nindex :=
  match o with
  | OpExtend us => ni_extend s us
  | OpRemove n => match ni_remove s n with Ok s' => s' | Err _ => s end
  | OpSwap i j => match ni_swap s i j with Ok s' => s' | Err _ => s end
  | OpClear => ni_clear
  end.
Definition ni_run (os : list niop) : nindex := fold_left ni_step os ni_clear.
(** every [extend] adds distinct nodes that are not already present *)
Fixpoint ni_fresh (s : nindex) (os : list niop) : Prop :=
  match os with
  | [] => True
  | o :: os' => match o with OpExtend us => NoDup (ni_list s ++ us) | _ => True end /\ ni_fresh (ni_step s o) os'
  end.

Lemma NoDup_app_remove_l {A} (l l' : list A) : NoDup (l ++ l') -> NoDup l'.
Proof. induction l; simpl; auto. intros H; inversion H; auto. Qed.
Definition ni_inv (s : nindex) : Prop :=
  NoDup (ni_list s) /\ forall n i, dget (ni_dict s) n = Some i <-> nth_error (ni_list s) i = Some n.
Lemma ni_enum_in b us d n k : NoDup us -> nth_error us k = Some n -> dget (ni_enum b us d) n = Some (b + k).
Proof.
  revert b d k; induction us as [|u us IH]; intros b d k ND H; [destruct k; discriminate|].
  inversion ND as [|? ? N1 N2]; subst. destruct k; simpl in H.
  - injection H as ->. simpl. rewrite Nat.add_0_r.
    assert (forall us b d, ~ In n us -> dget (ni_enum b us d) n = dget d n) as K.
    { clear. induction us as [|u us IH]; intros b d H; simpl; auto. rewrite IH by (simpl in H; tauto).
      rewrite dget_dset. destruct (Nat.eqb_spec u n); auto. subst; simpl in H; tauto. }
    rewrite K, dget_dset, Nat.eqb_refl by auto. reflexivity.
  - simpl. rewrite (IH (S b) _ k) by auto. f_equal; lia.
Qed.
Lemma ni_enum_out b us d n : ~ In n us -> dget (ni_enum b us d) n = dget d n.
Proof.
  revert b d; induction us as [|u us IH]; intros b d H; simpl; auto. rewrite IH by (simpl in H; tauto).
  rewrite dget_dset. destruct (Nat.eqb_spec u n); auto. subst; simpl in H; tauto.
Qed.
Lemma NoDup_nth_inj {A} (l : list A) i j a : NoDup l -> nth_error l i = Some a -> nth_error l j = Some a -> i = j.
Proof.
  intros ND Hi Hj. eapply NoDup_nth_error; eauto; [|congruence]. apply nth_error_Some. congruence.
Qed.
Lemma ni_inv_intro s : NoDup (ni_list s) -> (forall n i, nth_error (ni_list s) i = Some n -> dget (ni_dict s) n = Some i) ->
  (forall n, ~ In n (ni_list s) -> dget (ni_dict s) n = None) -> ni_inv s.
Proof.
  intros ND H1 H2. split; auto. intros n i; split; auto. intros H.
  destruct (in_dec Nat.eq_dec n (ni_list s)) as [K|K]; [|rewrite H2 in H by auto; discriminate].
  apply In_nth_error in K. destruct K as [j K]. pose proof (H1 _ _ K) as E. rewrite H in E. injection E as ->. auto.
Qed.
Lemma ni_inv_none s n : ni_inv s -> ~ In n (ni_list s) -> dget (ni_dict s) n = None.
Proof.
  intros [ND H] K. destruct (dget (ni_dict s) n) as [i|] eqn:E; auto. apply H in E. apply nth_error_In in E. tauto.
Qed.
Lemma ni_extend_inv s us : ni_inv s -> NoDup (ni_list s ++ us) -> ni_inv (ni_extend s us).
Proof.
  intros HI ND. pose proof HI as [ND0 HD]. unfold ni_extend.
  assert (skipn (length (ni_list s)) (ni_list s ++ us) = us) as -> by (rewrite skipn_app, skipn_all, Nat.sub_diag; reflexivity).
  assert (DJ : forall n, In n (ni_list s) -> ~ In n us).
  { intros n K1 K2. apply in_split in K2. destruct K2 as (a & b & ->). rewrite app_assoc in ND. apply NoDup_remove_2 in ND.
    apply ND. apply in_or_app; left; apply in_or_app; auto. }
  assert (NU : NoDup us) by (eapply NoDup_app_remove_l; eauto).
  apply ni_inv_intro; cbn [ni_list ni_dict]; auto.
  - intros n i H. destruct (Nat.lt_ge_cases i (length (ni_list s))) as [K|K].
    + rewrite nth_error_app1 in H by auto. rewrite ni_enum_out; [apply HD; auto|]. apply DJ. eapply nth_error_In; eauto.
    + rewrite nth_error_app2 in H by auto. rewrite (ni_enum_in _ _ _ _ _ NU H). f_equal; lia.
  - intros n H. rewrite ni_enum_out; [apply ni_inv_none; auto|]; intros K; apply H, in_or_app; auto.
Qed.
Lemma nth_error_ldel {A} (l : list A) i k : i < length l -> nth_error (ldel i l) k = nth_error l (if k <? i then k else S k).
Proof.
  intros Hi. unfold ldel. assert (L : length (firstn i l) = i) by (rewrite firstn_length; lia).
  destruct (Nat.ltb_spec k i).
  - rewrite nth_error_app1 by lia. rewrite <- (firstn_skipn i l) at 2. rewrite nth_error_app1 by lia. reflexivity.
  - rewrite nth_error_app2, L by lia. rewrite <- (firstn_skipn (S i) l) at 2.
    rewrite nth_error_app2; rewrite firstn_length; [f_equal; lia|lia].
Qed.
Lemma ldel_split {A} (l : list A) i n : nth_error l i = Some n -> exists a b, l = a ++ n :: b /\ length a = i /\ ldel i l = a ++ b.
Proof.
  intros H. destruct (nth_error_split _ _ H) as (a & b & -> & <-). exists a, b. split; auto. split; auto.
  unfold ldel. rewrite firstn_app, firstn_all, Nat.sub_diag, skipn_app. rewrite (skipn_all2 a) by lia.
  replace (S (length a) - length a) with 1 by lia. simpl. rewrite app_nil_r. reflexivity.
Qed.
Lemma ni_remove_inv s n s' : ni_inv s -> ni_remove s n = Ok s' ->
  ni_inv s' /\ exists a b, ni_list s = a ++ n :: b /\ ni_list s' = a ++ b.
Proof.
  intros HI H. pose proof HI as [ND HD]. unfold ni_remove in H. destruct (dget (ni_dict s) n) as [i|] eqn:E; [|discriminate].
  destruct (i <? length (ni_list s)); [|discriminate]. injection H as <-.
  apply HD in E. destruct (ldel_split _ _ _ E) as (a & b & EL & EA & ED).
  split; [|exists a, b; auto].
  rewrite EL in ND. pose proof (NoDup_remove_1 _ _ _ ND) as ND'. pose proof (NoDup_remove_2 _ _ _ ND) as NN.
  rewrite ED. subst i. assert (skipn (length a) (a ++ b) = b) as -> by (rewrite skipn_app, skipn_all, Nat.sub_diag; reflexivity).
  apply ni_inv_intro; cbn [ni_list ni_dict]; auto.
  - intros k i H. destruct (Nat.lt_ge_cases i (length a)) as [K|K].
    + rewrite nth_error_app1 in H by auto. rewrite ni_enum_out.
      * rewrite dget_ddel. destruct (Nat.eqb_spec n k); [subst; exfalso; apply NN, in_or_app; left; eapply nth_error_In; eauto|].
        apply HD. rewrite EL, nth_error_app1; auto.
      * intros KB. apply nth_error_In in H. apply in_split in KB. destruct KB as (b1 & b2 & ->). rewrite app_assoc in ND'. apply NoDup_remove_2 in ND'.
        apply ND'. apply in_or_app; left; apply in_or_app; auto.
    + rewrite nth_error_app2 in H by auto. rewrite (ni_enum_in _ _ _ _ _ (NoDup_app_remove_l _ _ ND') H). f_equal; lia.
  - intros k H. rewrite ni_enum_out; [|intros K; apply H, in_or_app; auto]. rewrite dget_ddel.
    destruct (Nat.eqb_spec n k); auto. apply ni_inv_none; auto. rewrite EL. intros K. apply H. apply in_app_or in K. apply in_or_app.
    destruct K as [?|[?|?]]; auto. congruence.
Qed.
Lemma nth_error_lset {A} (l : list A) i a k : i < length l -> nth_error (lset i a l) k = if k =? i then Some a else nth_error l k.
Proof.
  intros Hi. unfold lset. assert (L : length (firstn i l) = i) by (rewrite firstn_length; lia).
  destruct (Nat.eqb_spec k i).
  - subst. rewrite nth_error_app2, L, Nat.sub_diag by lia. reflexivity.
  - destruct (Nat.lt_ge_cases k i).
    + rewrite nth_error_app1 by lia. rewrite <- (firstn_skipn i l) at 2. rewrite nth_error_app1 by lia. reflexivity.
    + rewrite nth_error_app2, L by lia. destruct (k - i) as [|m] eqn:EM; [lia|]. simpl.
      rewrite <- (firstn_skipn (S i) l) at 2. rewrite nth_error_app2; rewrite firstn_length; [f_equal; lia|lia].
Qed.
Lemma length_lset {A} (l : list A) i a : i < length l -> length (lset i a l) = length l.
Proof. intros H. unfold lset. rewrite app_length, firstn_length. cbn [length]. rewrite skipn_length. lia. Qed.
Lemma ni_swap_inv s i j s' : ni_inv s -> ni_swap s i j = Ok s' ->
  ni_inv s' /\ length (ni_list s') = length (ni_list s) /\
  forall k, nth_error (ni_list s') k = nth_error (ni_list s) (if k =? i then j else if k =? j then i else k).
Proof.
  intros HI H. pose proof HI as [ND HD]. unfold ni_swap in H.
  destruct (nth_error (ni_list s) i) as [a|] eqn:Ei; [|discriminate]. destruct (nth_error (ni_list s) j) as [b|] eqn:Ej; [|discriminate].
  injection H as <-. cbn [ni_list ni_dict].
  assert (Li : i < length (ni_list s)) by (apply nth_error_Some; congruence).
  assert (Lj : j < length (ni_list s)) by (apply nth_error_Some; congruence).
  assert (NTH : forall k, nth_error (lset j a (lset i b (ni_list s))) k = nth_error (ni_list s) (if k =? i then j else if k =? j then i else k)).
  { intros k. rewrite nth_error_lset by (rewrite length_lset; auto). rewrite nth_error_lset by auto.
    destruct (Nat.eqb_spec k j), (Nat.eqb_spec k i); subst; auto; congruence. }
  split; [|split; auto; rewrite !length_lset; auto; rewrite length_lset; auto].
  assert (NDl : NoDup (lset j a (lset i b (ni_list s)))).
  { apply NoDup_nth_error. intros x y Hx E. rewrite !length_lset in Hx; auto; [|rewrite length_lset; auto].
    rewrite !NTH in E. apply (proj1 (NoDup_nth_error (ni_list s)) ND) in E;
      destruct (Nat.eqb_spec x i), (Nat.eqb_spec x j), (Nat.eqb_spec y i), (Nat.eqb_spec y j); subst; auto; lia. }
  apply ni_inv_intro; cbn [ni_list ni_dict]; auto.
  - intros n k H. rewrite NTH in H. rewrite !dget_dset.
    destruct (Nat.eqb_spec k i); [subst; rewrite Ej in H; injection H as ->; rewrite Nat.eqb_refl; auto|].
    destruct (Nat.eqb_spec k j); [subst; rewrite Ei in H; injection H as ->|].
    + destruct (Nat.eqb_spec b n); [subst|rewrite Nat.eqb_refl; auto].
      exfalso; apply n0. eapply (NoDup_nth_inj (ni_list s)); [exact ND| |]; eauto.
    + destruct (Nat.eqb_spec b n); [subst; exfalso; apply n1; eapply (NoDup_nth_inj (ni_list s)); [exact ND| |]; eauto|].
      destruct (Nat.eqb_spec a n); [subst; exfalso; apply n0; eapply (NoDup_nth_inj (ni_list s)); [exact ND| |]; eauto|]. apply HD; auto.
  - intros n H. rewrite !dget_dset.
    assert (HP : forall k, nth_error (ni_list s) k <> Some n).
    { intros k K. apply H. apply (nth_error_In _ (if k =? i then j else if k =? j then i else k)). rewrite NTH, <- K. f_equal.
      destruct (Nat.eqb_spec k i); [subst|destruct (Nat.eqb_spec k j); subst].
      - destruct (Nat.eqb_spec j i); [subst; auto|]. rewrite Nat.eqb_refl; auto.
      - rewrite Nat.eqb_refl; auto.
      - destruct (Nat.eqb_spec k i); try tauto. destruct (Nat.eqb_spec k j); tauto. }
    destruct (Nat.eqb_spec b n); [subst; destruct (HP j); auto|]. destruct (Nat.eqb_spec a n); [subst; destruct (HP i); auto|].
    apply ni_inv_none; auto. intros K. apply In_nth_error in K. destruct K as [k K]. destruct (HP k); auto.
Qed.
Lemma ni_run_inv os : ni_fresh ni_clear os -> ni_inv (ni_run os).
Proof.
  unfold ni_run. assert (ni_inv ni_clear) as HI.
  { apply ni_inv_intro; simpl; auto; [constructor|]. intros n [|i]; discriminate. }
  revert HI. generalize ni_clear. induction os as [|o os IH]; intros s HI HF; auto.
  simpl in HF. destruct HF as [H1 H2]. simpl. apply IH; auto. destruct o as [us|n|i j|]; simpl.
  - apply ni_extend_inv; auto.
  - destruct (ni_remove s n) eqn:E; auto. eapply ni_remove_inv; eauto.
  - destruct (ni_swap s i j) eqn:E; auto. eapply ni_swap_inv; eauto.
  - apply ni_inv_intro; simpl; auto; [constructor|]. intros n [|i]; discriminate.
Qed.
