(** Linear algebra behind the gflow / Pauli-flow finder: rank-nullity, focusing,
    and the correctness of the P-matrix algorithm (GPFlow.compute_p). *)
From Coq Require Import Arith ZArith List Bool Lia Permutation.
From Verif Require Import NSet Pattern OpenGraph TopGen Linalg LinalgThm GPFlow.
Import ListNotations.

(** matrix-vector product *)
Definition mv (n : nat) (A : list (list bool)) (x : nat -> bool) (i : nat) : bool := xsum n (fun j => ent A i j && x j).
Lemma mv_xor n A x y i : mv n A (fun j => xorb (x j) (y j)) i = xorb (mv n A x i) (mv n A y i).
Proof. unfold mv. rewrite <- xsum_xor. apply xsum_ext. intros. destruct (ent A i k), (x k), (y k); auto. Qed.
Lemma mv_sum n A m (c : nat -> bool) (x : nat -> nat -> bool) i :
  mv n A (fun j => xsum m (fun w => c w && x w j)) i = xsum m (fun w => c w && mv n A (x w) i).
Proof.
  unfold mv. rewrite (xsum_ext n _ (fun j => xsum m (fun w => c w && (ent A i j && x w j)))).
  - rewrite xsum_swap. apply xsum_ext. intros w Hw. apply xsum_and_l.
  - intros j Hj. rewrite <- xsum_and_l. apply xsum_ext. intros w Hw. destruct (ent A i j), (c w), (x w j); auto.
Qed.
Lemma mv_ext n A x y i : (forall j, j < n -> x j = y j) -> mv n A x i = mv n A y i.
Proof. intros H. apply xsum_ext. intros. rewrite H; auto. Qed.

(** * Focusing *)
Lemma focus m n M N (c : nat -> nat -> bool) (lay : nat -> nat) :
  (forall v, v < m -> mv n M (c v) v = true) ->
  (forall u v, u < m -> v < m -> u <> v -> mv n M (c v) u = true -> lay u < lay v) ->
  (forall u v, u < m -> v < m -> mv n N (c v) u = true -> lay u < lay v) ->
  exists c' : nat -> nat -> bool, forall v, v < m ->
    (forall u, u < m -> mv n M (c' v) u = delta u v) /\ (forall u, u < m -> mv n N (c' v) u = true -> lay u < lay v).
Proof.
  intros H1 H2 H3.
  assert (G : forall b v, v < m -> lay v < b -> exists x, (forall u, u < m -> mv n M x u = delta u v) /\ (forall u, u < m -> mv n N x u = true -> lay u < lay v)).
  { induction b; intros v Hv Hb; [lia|].
    destruct (finite_choice (fun _ => false) m (fun w x => lay w < b -> (forall u, u < m -> mv n M x u = delta u w) /\ (forall u, u < m -> mv n N x u = true -> lay u < lay w))) as [f Hf].
    { intros w Hw. destruct (Nat.lt_ge_cases (lay w) b) as [Hlt|Hge].
      - destruct (IHb w Hw Hlt) as [x Hx]. exists x. auto.
      - exists (fun _ => false). lia. }
    set (k := fun w => negb (w =? v)%nat && mv n M (c v) w).
    assert (Hk : forall w, w < m -> k w = true -> lay w < lay v).
    { intros w Hw E. unfold k in E. apply andb_true_iff in E. destruct E as [E1 E2]. apply negb_true_iff, Nat.eqb_neq in E1. apply H2; auto. }
    exists (fun j => xorb (c v j) (xsum m (fun w => k w && f w j))). split.
    - intros u Hu. rewrite mv_xor, mv_sum.
      rewrite (xsum_ext m _ (fun w => k w && delta w u)).
      + rewrite xsum_delta_r by auto. unfold k, delta. destruct (Nat.eqb_spec u v).
        * subst. rewrite H1 by auto. auto. * simpl. destruct (mv n M (c v) u); auto.
      + intros w Hw. destruct (k w) eqn:E; auto. simpl. apply Hk in E; auto. destruct (Hf w Hw ltac:(lia)) as [E1 _]. rewrite E1 by auto.
        unfold delta. apply Nat.eqb_sym.
    - intros u Hu. rewrite mv_xor, mv_sum. intros E.
      destruct (mv n N (c v) u) eqn:E1; [apply H3; auto|]. rewrite xorb_false_l in E. apply xsum_true in E.
      destruct E as (w & Hw & E). apply andb_true_iff in E. destruct E as [Ek En]. apply Hk in Ek as Hl; auto.
      destruct (Hf w Hw ltac:(lia)) as [_ E2]. specialize (E2 u Hu En). lia. }
  destruct (finite_choice (fun _ => false) m (fun v x => (forall u, u < m -> mv n M x u = delta u v) /\ (forall u, u < m -> mv n N x u = true -> lay u < lay v))) as [f Hf].
  { intros v Hv. apply (G (S (lay v)) v); auto. }
  exists f. auto.
Qed.

(** * Rank-nullity *)
Lemma eye_indep n : indep n n (eye n).
Proof.
  intros c Hc k Hk. rewrite <- (Hc k Hk). unfold comb. symmetry.
  rewrite (xsum_ext n _ (fun i => c i && delta i k)) by (intros; rewrite ent_eye; auto). apply xsum_delta_r; auto.
Qed.
Lemma eye_span n v : in_rowspace n n (eye n) v.
Proof.
  exists v. intros j Hj. unfold comb. symmetry.
  rewrite (xsum_ext n _ (fun i => v i && delta i j)) by (intros; rewrite ent_eye; auto). apply xsum_delta_r; auto.
Qed.
Lemma shaped_app m m' n A B : shaped m n A -> shaped m' n B -> shaped (m + m') n (A ++ B).
Proof.
  intros [LA HA] [LB HB]. split; [rewrite app_length; lia|]. intros r Hr. apply in_app_or in Hr. destruct Hr; auto.
Qed.
Lemma ent_app A B i j : ent (A ++ B) i j = if (i <? length A)%nat then ent A i j else ent B (i - length A) j.
Proof. unfold ent. destruct (Nat.ltb_spec i (length A)). - rewrite app_nth1; auto. - rewrite app_nth2; auto. Qed.
Lemma comb_app m m' n A B c j : shaped m n A ->
  comb (m + m') c (A ++ B) j = xorb (comb m c A j) (comb m' (fun k => c (m + k)) B j).
Proof.
  intros [LA _]. unfold comb. rewrite (xsum_split m) by lia. f_equal.
  - apply xsum_ext. intros k Hk. rewrite ent_app. destruct (Nat.ltb_spec k (length A)); [auto|lia].
  - replace (m + m' - m) with m' by lia. apply xsum_ext. intros k Hk. rewrite ent_app.
    destruct (Nat.ltb_spec (m + k) (length A)); [lia|]. replace (m + k - length A) with k by lia. auto.
Qed.
Lemma nullity M C : mat_ok M -> is_right_inverse (mrows M) (mcols M) (mdata M) C ->
  mrows M + mrows (null_space M) = mcols M.
Proof.
  intros HM HC. destruct (null_space_correct M HM) as (E1 & E2 & E3 & E4).
  set (m := mrows M) in *. set (n := mcols M) in *. set (D := mdata M) in *.
  set (k := mrows (null_space M)) in *. set (B := mdata (null_space M)) in *.
  assert (HB : shaped k n B) by (unfold mat_ok in E2; rewrite E1 in E2; auto).
  set (T := tab m (fun i => tab n (fun j => ent C j i))).
  assert (HT : shaped m n T) by apply shaped_tab.
  assert (HTe : forall i j, i < m -> j < n -> ent T i j = ent C j i) by (intros; unfold T; rewrite ent_tab; auto).
  assert (HS : shaped (m + k) n (T ++ B)) by (apply shaped_app; auto).
  (* M applied to a combination of the rows of T gives back the coefficients *)
  assert (HMT : forall c u, u < m -> mv n D (comb m c T) u = c u).
  { intros c u Hu. unfold comb. rewrite mv_sum. rewrite (xsum_ext m _ (fun w => c w && delta w u)).
    - apply xsum_delta_r; auto.
    - intros w Hw. f_equal. unfold mv. rewrite (xsum_ext n _ (fun j => ent D u j && ent C j w)).
      + rewrite HC by auto. unfold delta. apply Nat.eqb_sym.
      + intros j Hj. rewrite HTe by auto. auto. }
  assert (HMB : forall c u, u < m -> mv n D (comb k c B) u = false).
  { intros c u Hu. assert (K : in_kernel m n D (comb k c B)) by (apply E4; exists c; auto). apply K; auto. }
  apply Nat.le_antisymm.
  - apply (indep_le (m + k) n n (T ++ B) (eye n)); [apply eye_shaped| |intros; apply eye_span].
    intros c Hc.
    assert (Hc' : forall j, j < n -> xorb (comb m c T j) (comb k (fun q => c (m + q)) B j) = false).
    { intros j Hj. rewrite <- (comb_app m k n) by auto. auto. }
    assert (Hm : forall i, i < m -> c i = false).
    { intros i Hi. rewrite <- (HMT c i Hi). 
      assert (X : mv n D (fun j => xorb (comb m c T j) (comb k (fun q => c (m + q)) B j)) i = false).
      { apply xsum_0. intros j Hj. rewrite Hc' by auto. apply andb_false_r. }
      rewrite mv_xor, HMB, xorb_false_r in X by auto. auto. }
    intros i Hi. destruct (Nat.lt_ge_cases i m); auto.
    replace i with (m + (i - m)) by lia. apply (E3 (fun q => c (m + q))); [|lia].
    intros j Hj. specialize (Hc' j Hj). rewrite (comb_ext m c (fun _ => false)) in Hc' by auto. rewrite comb_zero, xorb_false_l in Hc'. auto.
  - apply (indep_le n (m + k) n (eye n) (T ++ B)); auto; [apply eye_indep|].
    intros v _. set (c1 := mv n D v).
    assert (K : in_rowspace k n B (fun j => xorb (v j) (comb m c1 T j))).
    { apply E4. intros i Hi. change (mv n D (fun j => xorb (v j) (comb m c1 T j)) i = false).
      rewrite mv_xor, HMT by auto. unfold c1. apply xorb_nilpotent. }
    destruct K as [c2 Hc2]. exists (fun i => if (i <? m)%nat then c1 i else c2 (i - m)).
    intros j Hj. rewrite (comb_app m k n) by auto.
    rewrite (comb_ext m _ c1) by (intros i Hi; destruct (Nat.ltb_spec i m); [auto|lia]).
    rewrite (comb_ext k _ c2) by (intros i Hi; destruct (Nat.ltb_spec (m + i) m); [lia|f_equal; lia]).
    rewrite <- Hc2 by auto. destruct (v j), (comb m c1 T j); auto.
Qed.

(** * Solving without assuming solvability: zero rows must have zero constants *)
Lemma echelon_solvable m nc p piv A b : elim_inv false m nc p piv A ->
  (forall i, p <= i -> i < m -> b i = false) -> exists x, forall i, i < m -> mv nc A x i = b i.
Proof.
  intros (Hp & Hl & Hinc & Hz & _) Hb.
  assert (G : forall q, q <= p -> exists x, (forall i, p - q <= i -> i < p -> mv nc A x i = b i) /\ (forall i j, i < p - q -> j <= piv i -> x j = false)).
  { induction q; intros Hq.
    - exists (fun _ => false). split; auto. lia.
    - destruct IHq as (x & Hx & Hxz); [lia|]. set (i0 := p - S q) in *.
      assert (Hi0 : i0 < p) by (unfold i0; lia). destruct (Hl i0 Hi0) as [Hlt [He Hlz]].
      set (v := xorb (b i0) (mv nc A x i0)).
      exists (fun j => if (j =? piv i0)%nat then v else x j). split.
      + intros i Hi Hip. destruct (Nat.eq_dec i i0) as [->|Hne].
        * assert (Hc := xsum_change nc (piv i0) (fun j => ent A i0 j && (if (j =? piv i0)%nat then v else x j)) (fun j => ent A i0 j && x j) Hlt).
          cbv beta in Hc. rewrite Nat.eqb_refl, He, !andb_true_l in Hc. rewrite (Hxz i0 (piv i0)) in Hc by (unfold i0; lia).
          fold (mv nc A (fun j => if (j =? piv i0)%nat then v else x j) i0) in Hc. fold (mv nc A x i0) in Hc.
          assert (Hc' : xorb (mv nc A (fun j => if (j =? piv i0)%nat then v else x j) i0) (mv nc A x i0) = v).
          { rewrite Hc; [apply xorb_false_r|]. intros j _ Hj. destruct (Nat.eqb_spec j (piv i0)); auto; congruence. }
          unfold v in Hc' at 2. revert Hc'. destruct (mv nc A (fun j => if (j =? piv i0)%nat then v else x j) i0), (mv nc A x i0), (b i0); simpl; congruence.
        * assert (Hii : i0 < i) by (unfold i0 in *; lia). rewrite <- (Hx i) by (unfold i0 in *; lia). apply xsum_ext. intros j Hj.
          destruct (Nat.eqb_spec j (piv i0)); auto. subst j.
          destruct (Hl i Hip) as [_ [_ Hiz]]. rewrite Hiz; auto.
      + intros i j Hi Hj. assert (piv i < piv i0) by (apply Hinc; auto).
        destruct (Nat.eqb_spec j (piv i0)); [lia|]. apply (Hxz i); auto. unfold i0 in *; lia. }
  destruct (G p (le_n p)) as (x & Hx & _). exists x. intros i Hi. destruct (Nat.lt_ge_cases i p).
  - apply Hx; auto. lia.
  - rewrite Hb by auto. apply xsum_0. intros j Hj. rewrite Hz; auto.
Qed.

(** * Sums over lists *)
Definition xl (l : list bool) : bool := fold_right xorb false l.
Lemma xl_perm l l' : Permutation l l' -> xl l = xl l'.
Proof.
  induction 1; simpl; auto.
  - congruence. - destruct x, y, (xl l); auto. - congruence.
Qed.
Lemma xl_app l l' : xl (l ++ l') = xorb (xl l) (xl l').
Proof. induction l; simpl. - destruct (xl l'); auto. - rewrite IHl. symmetry; apply xorb_assoc. Qed.
Lemma xsum_xl n f : xsum n f = xl (map f (seq 0 n)).
Proof. induction n; auto. rewrite seq_snoc, map_app, xl_app. simpl. rewrite IHn, xorb_false_r. auto. Qed.
Lemma xsum_perm n perm f : Permutation perm (seq 0 n) -> xsum n (fun i => f (nth i perm 0)) = xsum n f.
Proof.
  intros H. rewrite !xsum_xl. transitivity (xl (map f perm)); [|apply xl_perm, Permutation_map; auto].
  f_equal. rewrite <- (map_map (fun i => nth i perm 0) f). f_equal.
  assert (HL : length perm = n) by (rewrite (Permutation_length H); apply seq_length).
  rewrite <- HL. clear. apply nth_ext with 0 0.
  - rewrite map_length, seq_length. auto.
  - intros i Hi. rewrite map_length, seq_length in Hi. change 0 with (nth 0 perm 0) at 1 || idtac.
    rewrite (nth_indep _ _ (nth 0 perm 0)) by (rewrite map_length, seq_length; auto).
    rewrite (map_nth (fun i => nth i perm 0)). rewrite seq_nth; auto.
Qed.
