(** The P-matrix algorithm of _find_gpflow.py: the linear system K_LS keeps its
    row echelon form when solved vertices are removed. *)
From Coq Require Import Arith ZArith List Bool Lia Permutation.
From Verif Require Import NSet Pattern OpenGraph TopGen Linalg LinalgThm GPFlow GPLin.
Import ListNotations.

Lemma last_filter f q k idxs : rev (filter f (seq 0 q)) = k :: idxs ->
  k < q /\ f k = true /\ (forall i, k < i -> i < q -> f i = false) /\ rev idxs = filter f (seq 0 k).
Proof.
  induction q; [discriminate|]. rewrite seq_snoc, filter_app, rev_app_distr. simpl.
  destruct (f q) eqn:E; simpl.
  - intros [= <- <-]. rewrite rev_involutive. repeat split; auto. intros; lia.
  - intros H. destruct (IHq H) as (H1 & H2 & H3 & H4). repeat split; auto.
    intros i Hi Hq. destruct (Nat.eq_dec i q); [subst; auto|]. apply H3; lia.
Qed.
Lemma last_filter_none f q : rev (filter f (seq 0 q)) = [] -> forall i, i < q -> f i = false.
Proof.
  intros H i Hi. destruct (f i) eqn:E; auto. exfalso.
  assert (In i (rev (filter f (seq 0 q)))) by (rewrite <- in_rev; apply filter_In; split; auto; apply in_seq; lia).
  rewrite H in H0. destruct H0.
Qed.
Lemma flatnonzero_nil r : flatnonzero r = [] <-> forall j, j < length r -> nth j r false = false.
Proof.
  unfold flatnonzero. split.
  - intros H j Hj. destruct (nth j r false) eqn:E; auto. exfalso.
    assert (In j (filter (fun j => nth j r false) (seq 0 (length r)))) by (apply filter_In; split; auto; apply in_seq; lia).
    rewrite H in H0. destruct H0.
  - intros H. destruct (filter _ _) as [|a l] eqn:E; auto. exfalso.
    assert (K : In a (filter (fun j => nth j r false) (seq 0 (length r)))) by (rewrite E; left; auto).
    apply filter_In in K. destruct K as [K1 K2]. apply in_seq in K1. rewrite H in K2; [discriminate|lia].
Qed.
Lemma flatnonzero_first m n d A i j : shaped m n A -> i < m -> d <= n -> j < d -> leads A i j ->
  exists l, flatnonzero (firstn d (row A i)) = j :: l.
Proof.
  intros HA Hi Hd Hj [He Hz]. unfold flatnonzero. rewrite firstn_length, (shaped_row m n), Nat.min_l by auto.
  assert (X : forall j', j' < d -> nth j' (firstn d (row A i)) false = ent A i j') by (intros; rewrite nth_firstn' by auto; auto).
  assert (Es : seq 0 d = seq 0 j ++ j :: seq (S j) (d - S j)) by (replace d with (j + S (d - S j)) at 1 by lia; rewrite seq_app; reflexivity).
  rewrite Es, filter_app. cbn [filter].
  rewrite X, He by auto.
  replace (filter (fun j0 => nth j0 (firstn d (row A i)) false) (seq 0 j)) with (@nil nat); [eexists; reflexivity|].
  symmetry. assert (G : forall l, (forall x, In x l -> nth x (firstn d (row A i)) false = false) -> filter (fun j0 => nth j0 (firstn d (row A i)) false) l = []).
  { induction l; simpl; intros G; auto. rewrite G, IHl; auto. }
  apply G. intros x Hx. apply in_seq in Hx. rewrite X by lia. apply Hz. lia.
Qed.

Section Kls.
  Variables (d n_no q : nat) (K0 : list (list bool)).
  Notation o := (d + n_no).
  Notation W := (d + n_no + q).
  Hypothesis K0sh : shaped q W K0.
  Hypothesis K0id : forall k k', k < q -> k' < q -> ent K0 k (o + k') = delta k k'.

  (** every row is the combination of the original rows recorded in its third block *)
  Record jinv (live : nat -> bool) (K : list (list bool)) : Prop := {
    j_sh : shaped q W K;
    j_comb : forall i c, i < q -> c < W -> ent K i c = xsum q (fun k => ent K i (o + k) && ent K0 k c);
    j_live : forall i k, i < q -> k < q -> ent K i (o + k) = true -> live k = true }.
  Definition span (live : nat -> bool) (K : list (list bool)) : Prop :=
    forall t, (forall k, k < q -> t k = true -> live k = true) -> exists e, forall c, c < W -> comb q t K0 c = comb q e K c.
  Record kinv (live : nat -> bool) (K : list (list bool)) : Prop := {
    k_j : jinv live K;
    k_span : span live K;
    k_ech : exists p piv, elim_inv false q d p piv K }.

  Lemma kinv_init : kinv (fun _ => true) (mdata (gauss_elimination d (Mat q W K0))).
  Proof.
    unfold gauss_elimination. destruct (elimination_spec false d q W K0 K0sh ltac:(lia)) as [HR HI].
    set (K := mdata (elimination false d (Mat q W K0))) in *.
    destruct (rops_comb _ _ _ _ HR K0sh) as (f & g & Hf & Hg & H0).
    assert (HC3 : forall c k, k < q -> comb q c K0 (o + k) = c k).
    { intros c k Hk. unfold comb. rewrite (xsum_ext q _ (fun i => c i && delta i k)) by (intros; rewrite K0id; auto). apply xsum_delta_r; auto. }
    split; [split|..]; auto.
    - eapply rops_shaped; eauto.
    - intros i c Hi Hc. rewrite <- (comb_delta q K i c) by auto. rewrite Hg. apply xsum_ext. intros k Hk. f_equal.
      rewrite <- (comb_delta q K i (o + k)), Hg, HC3 by auto. auto.
    - intros t _. exists (f t). intros c Hc. apply Hf.
  Qed.

  (** the solvability test and the solution *)
  Definition eqs (live : nat -> bool) (jv : nat) (x : nat -> bool) : Prop :=
    forall k, k < q -> live k = true -> mv d K0 x k = ent K0 k (d + jv).
  Lemma kls_eqs live K jv x : kinv live K -> jv < n_no ->
    (eqs live jv x <-> forall i, i < q -> mv d K x i = ent K i (d + jv)).
  Proof.
    intros [HJ HS _] Hjv. split.
    - intros H i Hi. unfold mv. rewrite (xsum_ext d _ (fun c => xsum q (fun k => ent K i (o + k) && (ent K0 k c && x c)))).
      + rewrite xsum_swap. rewrite (j_comb _ _ HJ) by (auto; lia). apply xsum_ext. intros k Hk. rewrite xsum_and_l.
        destruct (ent K i (o + k)) eqn:E; auto. simpl. apply H; auto. exact (j_live _ _ HJ i k Hi Hk E).
      + intros c Hc. rewrite (j_comb _ _ HJ) by (auto; lia). rewrite <- xsum_and_r. apply xsum_ext. intros. symmetry; apply andb_assoc.
    - intros H k Hk Hl. destruct (HS (delta k)) as [e He].
      { intros k' Hk' E. unfold delta in E. apply Nat.eqb_eq in E. subst; auto. }
      assert (He' : forall c, c < W -> ent K0 k c = comb q e K c) by (intros c Hc; rewrite <- He by auto; symmetry; apply comb_delta; auto).
      rewrite He' by lia. unfold mv, comb. rewrite (xsum_ext d _ (fun c => xsum q (fun i => e i && (ent K i c && x c)))).
      + rewrite xsum_swap. apply xsum_ext. intros i Hi. rewrite xsum_and_l. f_equal. apply H; auto.
      + intros c Hc. rewrite He' by lia. unfold comb. rewrite <- xsum_and_r. apply xsum_ext. intros. symmetry; apply andb_assoc.
  Qed.
  Definition test (K : list (list bool)) (jv : nat) : bool := forallb (fun r => any_row d r || negb (nth (d + jv) r false)) K.
  Definition solution (K : list (list bool)) (jv : nat) : list bool :=
    solve_f2 (Mat q d (map (firstn d) K)) (map (fun r => nth (d + jv) r false) K).
  Lemma firstn_shaped m n K : shaped m n K -> d <= n -> shaped m d (map (firstn d) K).
  Proof.
    intros [HL H] Hd. split; [rewrite map_length; auto|]. intros r Hr. apply in_map_iff in Hr. destruct Hr as (r0 & <- & Hr).
    rewrite firstn_length, H; auto. lia.
  Qed.
  Lemma ent_firstn K i j : j < d -> ent (map (firstn d) K) i j = ent K i j.
  Proof.
    intros Hj. unfold ent. replace (@nil bool) with (firstn d (@nil bool)) at 1 by apply firstn_nil.
    rewrite map_nth. apply nth_firstn'. auto.
  Qed.
  Lemma test_spec live K jv : kinv live K -> jv < n_no ->
    (test K jv = true <-> exists x, eqs live jv x) /\
    (test K jv = true -> length (solution K jv) = d /\ eqs live jv (fun i => nth i (solution K jv) false)).
  Proof.
    intros HK Hjv. destruct (HK) as [HJ HS (p & piv & HI)]. destruct (j_sh _ _ HJ) as [HL Hrow].
    assert (Ht : test K jv = true <-> forall i, i < q -> any_row d (row K i) = true \/ ent K i (d + jv) = false).
    { unfold test. rewrite forallb_forall. split.
      - intros H i Hi. assert (X := H (row K i)). rewrite orb_true_iff, negb_true_iff in X. apply X. apply nth_In. lia.
      - intros H r Hr. apply In_nth with (d := []) in Hr. destruct Hr as (i & Hi & <-). rewrite orb_true_iff, negb_true_iff. apply (H i). lia. }
    assert (Hany : forall i, i < q -> any_row d (row K i) = true <-> i < p).
    { intros i Hi. destruct HI as (Hp & Hl & _ & Hz & _). split.
      - intros A. destruct (Nat.lt_ge_cases i p); auto. apply any_row_spec in A. destruct A as (j & Hj & E).
        assert (ent K i j = false) by auto. unfold ent in H0. unfold row in E. congruence.
      - intros Hip. destruct (Hl i Hip) as [A B]. eapply any_row_lead; eauto. }
    assert (Hx : test K jv = true -> exists x, forall i, i < q -> mv d K x i = ent K i (d + jv)).
    { intros T. rewrite Ht in T. apply (echelon_solvable q d p piv K (fun i => ent K i (d + jv)) HI).
      intros i Hp Hi. destruct (T i Hi) as [A|A]; auto. apply Hany in A; auto. lia. }
    split; [split|].
    - intros T. destruct (Hx T) as [x E]. exists x. apply (kls_eqs live K jv x HK Hjv); auto.
    - intros (x & E). assert (E0 := proj1 (kls_eqs live K jv x HK Hjv) E). clear E. rename E0 into E. apply Ht. intros i Hi.
      destruct (any_row d (row K i)) eqn:A; auto. right. rewrite <- E by auto. rewrite any_row_false in A.
      apply xsum_0. intros j Hj. assert (ent K i j = false) by (apply A; auto). rewrite H. auto.
    - intros T. destruct (Hx T) as [x E].
      assert (Hn : forall i, i < q -> nth i (map (fun r => nth (d + jv) r false) K) false = ent K i (d + jv)).
      { intros i Hi. unfold ent. rewrite (nth_indep _ false ((fun r => nth (d + jv) r false) [])) by (rewrite map_length; lia).
        rewrite (map_nth (fun r => nth (d + jv) r false)). auto. }
      assert (Hm : forall y i, i < q -> xsum d (fun j => ent (map (firstn d) K) i j && y j) = mv d K y i).
      { intros y i Hi. apply xsum_ext. intros j Hj. rewrite ent_firstn by auto. auto. }
      destruct (solve_correct (Mat q d (map (firstn d) K)) (map (fun r => nth (d + jv) r false) K) x) as [S1 S2].
      + apply (firstn_shaped q W); [apply HJ|lia].
      + cbn [mrows]. rewrite map_length. auto.
      + cbn [mrows mcols mdata]. intros i i' j' Hi Hi' Hj' He. rewrite ent_firstn in He by auto.
        destruct (inv_echelon _ _ _ _ _ _ HI i i' j' Hi Hi' Hj' He) as (j & Hj & [A B]). exists j. split; auto.
        split; [rewrite ent_firstn by lia; auto|]. intros j0 Hj0. rewrite ent_firstn by lia. auto.
      + cbn [mrows mcols mdata]. intros i Hi. rewrite Hm, Hn, E by auto. auto.
      + cbn [mrows mcols mdata] in S1, S2. split; auto. apply (kls_eqs live K jv _ HK Hjv).
        intros i Hi. rewrite <- Hm by auto. rewrite <- Hn by auto. apply S2; auto.
  Qed.

  (** ** Removing the row of a solved vertex *)
  Lemma radd_j live K k i : jinv live K -> k < q -> i < q -> k <> i -> jinv live (radd k i K).
  Proof.
    intros HJ Hk Hi Hn. split.
    - apply radd_shaped; auto. apply HJ.
    - intros r c Hr Hc. rewrite (ent_radd q W) by (auto; apply HJ).
      rewrite (xsum_ext q _ (fun k0 => (if (r =? k)%nat then xorb (ent K k (o + k0)) (ent K i (o + k0)) else ent K r (o + k0)) && ent K0 k0 c))
        by (intros; rewrite (ent_radd q W) by (auto; apply HJ); auto).
      destruct (Nat.eqb_spec r k).
      + rewrite (j_comb _ _ HJ k), (j_comb _ _ HJ i) by auto. rewrite <- xsum_xor. apply xsum_ext. intros k0 Hk0.
        destruct (ent K k (o + k0)), (ent K i (o + k0)), (ent K0 k0 c); auto.
      + apply HJ; auto.
    - intros r k0 Hr Hk0. rewrite (ent_radd q W) by (auto; apply HJ). destruct (Nat.eqb_spec r k); [|apply HJ; auto].
      destruct (ent K k (o + k0)) eqn:E; [intros _; exact (j_live _ _ HJ k k0 Hk Hk0 E)|]. intros E'. assert (ent K i (o + k0) = true) by (destruct (ent K i (o + k0)); auto). exact (j_live _ _ HJ i k0 Hi Hk0 H).
  Qed.
  (** step 12.d.iii: add row k to earlier rows *)
  Lemma add_fold (k : nat) l : NoDup l -> (forall i, In i l -> i < q /\ i <> k) -> k < q -> forall K, shaped q W K ->
    let K' := fold_left (fun K i => upd i (rxor (row K i) (row K k)) K) l K in
    shaped q W K' /\ (forall i c, ent K' i c = if lmem i l then xorb (ent K i c) (ent K k c) else ent K i c) /\
    (forall live, jinv live K -> jinv live K').
  Proof.
    intros ND Hl Hk. induction l as [|a l IH]; intros K HK; cbn [fold_left].
    - simpl. auto.
    - inversion ND as [|? ? N1 N2]; subst. destruct (Hl a) as [Ha Hak]; [left; auto|].
      change (upd a (rxor (row K a) (row K k)) K) with (radd a k K).
      assert (HR := radd_shaped q W a k K HK Ha Hk).
      destruct (IH N2 (fun i Hi => Hl i (or_intror Hi)) (radd a k K) HR) as (A & B & C).
      split; auto. split.
      + intros i c. rewrite B. rewrite !(ent_radd q W _ _ K) by auto. destruct (Nat.eqb_spec k a); [congruence|].
        unfold lmem. cbn [existsb]. destruct (Nat.eqb_spec i a).
        * subst i. simpl. assert (existsb (Nat.eqb a) l = false).
          { destruct (existsb (Nat.eqb a) l) eqn:E; auto. apply existsb_exists in E. destruct E as (x & Hx & E). apply Nat.eqb_eq in E. subst; contradiction. }
          rewrite H. auto.
        * simpl. auto.
      + intros live HJ. apply C. apply radd_j; auto.
  Qed.
  (** rows other than k in echelon form with pivots piv *)
  Definition others (k p : nat) (piv : nat -> nat) (K : list (list bool)) : Prop :=
    p <= q /\ (forall i, i < p -> i <> k -> piv i < d /\ leads K i (piv i)) /\
    (forall i i', i < i' -> i' < p -> piv i < piv i') /\
    (forall i c, p <= i -> i < q -> i <> k -> c < d -> ent K i c = false).
  Lemma reduce_spec live k p piv : forall n a K pivs, a + n = q -> k < q -> jinv live K -> others k p piv K ->
    (forall i, i < a -> i < p -> i <> k -> ent K k (piv i) = false) ->
    let '(pv, K') := reduce_k d k (seq a n) K pivs in
    jinv live K' /\ (forall i c, i < q -> i <> k -> ent K' i c = ent K i c) /\
    (forall i, i < p -> i <> k -> ent K' k (piv i) = false) /\
    pv = pivs ++ map piv (filter (fun i => negb (i =? k)%nat) (seq a (p - a))).
  Proof.
    induction n; intros a K pivs Ha Hk HJ HO Hz; cbn [seq reduce_k].
    - destruct HO as (Hp & _). replace (p - a) with 0 by lia. simpl. rewrite app_nil_r. repeat split; try apply HJ; auto.
      intros i Hi Hik. apply Hz; auto. lia.
    - destruct (Nat.eqb_spec a k) as [E|E].
      + assert (IH := IHn (S a) K pivs ltac:(lia) Hk HJ HO).
        destruct (reduce_k d k (seq (S a) n) K pivs) as [pv K'].
        destruct IH as (A & B & C & D).
        { intros i Hi Hip Hik. apply Hz; auto. lia. }
        repeat split; try apply A; auto. rewrite D. f_equal. f_equal.
        destruct (Nat.lt_ge_cases a p).
        * replace (p - a) with (S (p - S a)) by lia. cbn [seq filter]. subst a. rewrite Nat.eqb_refl. auto.
        * replace (p - a) with 0 by lia. replace (p - S a) with 0 by lia. auto.
      + destruct HO as (Hp & Hl & Hinc & Hzz). destruct (Nat.lt_ge_cases a p) as [Hap|Hap].
        * destruct (Hl a Hap E) as [Hd Hld].
          destruct (flatnonzero_first q W d K a (piv a) (j_sh _ _ HJ) ltac:(lia) ltac:(lia) Hd Hld) as [l ->].
          set (K1 := if ent K k (piv a) then upd k (rxor (row K k) (row K a)) K else K).
          assert (HJ1 : jinv live K1) by (unfold K1; destruct (ent K k (piv a)); auto; apply (radd_j live K k a); auto; lia).
          assert (E1 : forall i c, i <> k -> ent K1 i c = ent K i c).
          { intros i c Hik. unfold K1. destruct (ent K k (piv a)); auto. change (upd k (rxor (row K k) (row K a)) K) with (radd k a K).
            rewrite (ent_radd q W) by (auto; try apply HJ; lia). destruct (Nat.eqb_spec i k); auto; congruence. }
          assert (E2 : forall c, ent K1 k c = xorb (ent K k c) (ent K k (piv a) && ent K a c)).
          { intros c. unfold K1. destruct (ent K k (piv a)); [|simpl; rewrite xorb_false_r; auto].
            change (upd k (rxor (row K k) (row K a)) K) with (radd k a K).
            rewrite (ent_radd q W) by (auto; try apply HJ; lia). rewrite Nat.eqb_refl. auto. }
          assert (IH := IHn (S a) K1 (pivs ++ [piv a]) ltac:(lia) Hk HJ1).
          destruct (reduce_k d k (seq (S a) n) K1 (pivs ++ [piv a])) as [pv K'].
          destruct IH as (A & B & C & D).
          { split; [auto|]. split; [|split; [auto|]].
            - intros i Hi Hik. destruct (Hl i Hi Hik) as [X [Y Z]]. split; auto. split; [rewrite E1; auto|]. intros; rewrite E1; auto.
            - intros i c Hi Hiq Hik Hc. rewrite E1; auto. }
          { intros i Hi Hip Hik. rewrite E2. destruct (Nat.eq_dec i a).
            - subst i. destruct Hld as [He _]. rewrite He. destruct (ent K k (piv a)); auto.
            - rewrite Hz by (auto; lia). destruct Hld as [_ Hlz]. rewrite Hlz by (apply Hinc; lia). rewrite andb_false_r. auto. }
          repeat split; try apply A; auto.
          -- intros i c Hi Hik. rewrite B, E1; auto.
          -- rewrite D, <- app_assoc. simpl. f_equal. replace (p - a) with (S (p - S a)) by lia. cbn [seq filter].
             destruct (Nat.eqb_spec a k); [congruence|]. auto.
        * assert (En : flatnonzero (firstn d (row K a)) = []).
          { apply flatnonzero_nil. intros j Hj. rewrite firstn_length in Hj. rewrite nth_firstn' by lia. apply Hzz; auto; lia. }
          rewrite En. replace (p - a) with 0 by lia. simpl. rewrite app_nil_r. repeat split; try apply HJ; auto.
          intros i Hi Hik. apply Hz; auto. lia.
  Qed.
  (** the permutation that moves row k just after the last pivot row *)
  Definition sigma (k p i : nat) : nat := if (i <? k)%nat then i else if (i <? p)%nat then S i else if (i =? p)%nat then k else i.
  Lemma reorder_perm k p : k < p -> p < q -> Permutation (reorder (seq 0 q) k (Z.of_nat p)) (seq 0 q).
  Proof.
    intros Hk Hp. unfold reorder. rewrite (proj2 (Z.ltb_ge (Z.of_nat p) (Z.of_nat k))) by lia. rewrite Z.add_0_r, Nat2Z.id.
    unfold linsert, lpop. set (l := seq 0 q). rewrite <- (firstn_skipn k l) at 6.
    assert (Hs : skipn k l = nth k l 0 :: skipn (S k) l).
    { assert (HL : k < length l) by (unfold l; rewrite seq_length; lia). clear -HL. revert k HL; induction l; intros [|k] H; simpl in *; auto; try lia. apply IHl. lia. }
    rewrite Hs. set (x := nth k l 0). set (A := firstn k l ++ skipn (S k) l).
    transitivity (x :: A).
    - rewrite <- (firstn_skipn p A) at 3. symmetry. apply Permutation_middle.
    - unfold A. apply Permutation_middle.
  Qed.
  Lemma reorder_nth k p i : k < p -> p < q -> i < q -> nth i (reorder (seq 0 q) k (Z.of_nat p)) 0 = sigma k p i.
  Proof.
    intros Hk Hp Hi. unfold reorder. rewrite (proj2 (Z.ltb_ge (Z.of_nat p) (Z.of_nat k))) by lia. rewrite Z.add_0_r, Nat2Z.id.
    unfold linsert, lpop. set (l := seq 0 q). assert (HL : length l = q) by (unfold l; apply seq_length).
    assert (Hn : forall j, j < q -> nth j l 0 = j) by (intros; unfold l; rewrite seq_nth; auto).
    set (A := firstn k l ++ skipn (S k) l).
    assert (HA : forall j, j < q - 1 -> nth j A 0 = if (j <? k)%nat then j else S j).
    { intros j Hj. unfold A. destruct (Nat.ltb_spec j k).
      - rewrite app_nth1 by (rewrite firstn_length; lia). rewrite nth_firstn' by auto. apply Hn; lia.
      - rewrite app_nth2 by (rewrite firstn_length; lia). rewrite firstn_length, nth_skipn', Hn by lia. lia. }
    assert (HAl : length A = q - 1) by (unfold A; rewrite app_length, firstn_length, skipn_length; lia).
    unfold sigma. destruct (Nat.ltb_spec i p).
    - rewrite app_nth1 by (rewrite firstn_length; lia). rewrite nth_firstn' by auto. rewrite HA by lia. auto.
    - rewrite app_nth2 by (rewrite firstn_length; lia). rewrite firstn_length, Nat.min_l by lia.
      destruct (Nat.ltb_spec i k); [lia|]. destruct (Nat.eqb_spec i p).
      + rewrite e, Nat.sub_diag. simpl. apply Hn. lia.
      + replace (i - p) with (S (i - p - 1)) by lia. simpl. rewrite nth_skipn', HA by lia.
        destruct (Nat.ltb_spec (p + (i - p - 1)) k); lia.
  Qed.
  Lemma perm_kinv live K perm : Permutation perm (seq 0 q) -> jinv live K -> span live K ->
    jinv live (map (row K) perm) /\ span live (map (row K) perm) /\ forall i c, i < q -> ent (map (row K) perm) i c = ent K (nth i perm 0) c.
  Proof.
    intros HP HJ HS. assert (HL : length perm = q) by (rewrite (Permutation_length HP); apply seq_length).
    assert (He : forall i c, i < q -> ent (map (row K) perm) i c = ent K (nth i perm 0) c).
    { intros i c Hi. unfold ent. rewrite (nth_indep _ [] (row K 0)) by (rewrite map_length; lia). rewrite map_nth. auto. }
    assert (Hin : forall i, i < q -> nth i perm 0 < q).
    { intros i Hi. assert (In (nth i perm 0) (seq 0 q)); [|apply in_seq in H; lia]. eapply Permutation_in; eauto. apply nth_In. lia. }
    split; [|split; auto].
    - split.
      + split; [rewrite map_length; auto|]. intros r Hr. apply in_map_iff in Hr. destruct Hr as (i & <- & Hi).
        apply (shaped_row q W); [apply HJ|]. eapply Permutation_in in Hi; eauto. apply in_seq in Hi. lia.
      + intros i c Hi Hc. rewrite He by auto. rewrite (j_comb _ _ HJ) by auto. apply xsum_ext. intros. rewrite He; auto.
      + intros i k Hi Hk. rewrite He by auto. apply HJ; auto.
    - intros t Ht. destruct (HS t Ht) as [e E]. exists (fun i => e (nth i perm 0)). intros c Hc. rewrite E by auto.
      unfold comb. rewrite (xsum_ext q (fun k => e (nth k perm 0) && ent (map (row K) perm) k c) (fun i => (fun r => e r && ent K r c) (nth i perm 0)))
        by (intros; rewrite He; auto).
      rewrite (xsum_perm q perm (fun r => e r && ent K r c)); auto.
  Qed.

  Variable optim : list nat.
  Hypothesis Hoq : length optim = q.
  Lemma update_kls_ok live K v : kinv live K -> lmem v optim = true -> pos v optim < q -> live (pos v optim) = true ->
    exists K', update_kls optim d n_no q K0 K v = Ok K' /\ kinv (fun k => live k && negb (k =? pos v optim)%nat) K'.
  Proof.
    intros [HJ HS (p & piv & HI)] Hv Hj Hlv. unfold update_kls. rewrite Hv. cbn [negb]. set (j := pos v optim) in *. clearbody j.
    set (live' := fun k => live k && negb (k =? j)%nat).
    destruct (rev (filter (fun i => ent K i (o + j)) (seq 0 q))) as [|k idxs] eqn:EI.
    { exfalso. assert (HN := last_filter_none _ _ EI). destruct (HS (delta j)) as [e He].
      { intros k' Hk' E. unfold delta in E. apply Nat.eqb_eq in E. subst; auto. }
      specialize (He (o + j) ltac:(lia)). rewrite comb_delta, K0id in He by auto. unfold delta in He. rewrite Nat.eqb_refl in He.
      unfold comb in He. rewrite xsum_0 in He; [discriminate|]. intros i Hi. rewrite HN by auto. apply andb_false_r. }
    destruct (last_filter _ _ _ _ EI) as (Hk & Ek & Hafter & Ridx). rewrite Ridx.
    set (l := filter (fun i => ent K i (o + j)) (seq 0 k)).
    assert (HlS : forall i, In i l <-> i < k /\ ent K i (o + j) = true).
    { intros i. unfold l. rewrite filter_In, in_seq. split; intros [? ?]; split; auto; lia. }
    destruct (add_fold k l) with (K := K) as (S1 & E1 & J1); auto.
    { apply NoDup_filter, seq_NoDup. } { intros i Hi. apply HlS in Hi. lia. } { apply HJ. }
    set (K1 := fold_left (fun K i => upd i (rxor (row K i) (row K k)) K) l K) in *. specialize (J1 live HJ).
    assert (Hkl : lmem k l = false). { destruct (lmem k l) eqn:E; auto. apply lmem_In, HlS in E. lia. }
    assert (H1k : forall c, ent K1 k c = ent K k c) by (intros; rewrite E1, Hkl; auto).
    assert (H1j : forall i, i < q -> i <> k -> ent K1 i (o + j) = false).
    { intros i Hi Hik. rewrite E1. destruct (lmem i l) eqn:E.
      - apply lmem_In, HlS in E. destruct E as [_ ->]. rewrite Ek. auto.
      - destruct (ent K i (o + j)) eqn:E'; auto. destruct (Nat.lt_ge_cases i k).
        + assert (lmem i l = true) by (apply lmem_In, HlS; auto). congruence.
        + rewrite Hafter in E'; [discriminate| |]; lia. }
    (* K1 is still in echelon form, with the same pivots *)
    destruct HI as (Hp & Hl & Hinc & Hz & _).
    assert (Hkrow : forall i c, In i l -> c < d -> (i < p -> c <= piv i) -> ent K k c = false).
    { intros i c Hi Hc Hpc. apply HlS in Hi. destruct (Nat.lt_ge_cases k p).
      - destruct (Hl k H) as [_ [_ Hkz]]. apply Hkz. assert (piv i < piv k) by (apply Hinc; lia). lia.
      - apply Hz; auto. }
    assert (HI1 : others k p piv K1 /\ (k < p -> piv k < d /\ leads K1 k (piv k)) /\ (p <= k -> forall c, c < d -> ent K1 k c = false)).
    { split; [|split].
      - split; [auto|]. split; [|split; [auto|]].
        + intros i Hi Hik. destruct (Hl i Hi) as [A [B C]]. split; auto. split.
          * rewrite E1. destruct (lmem i l) eqn:E; auto. apply lmem_In in E. rewrite (Hkrow i) by auto. rewrite xorb_false_r. auto.
          * intros j' Hj'. rewrite E1. destruct (lmem i l) eqn:E; auto. apply lmem_In in E. rewrite (Hkrow i) by (auto; lia). rewrite xorb_false_r. auto.
        + intros i c Hi Hiq Hik Hc. rewrite E1. destruct (lmem i l) eqn:E; auto. apply lmem_In in E. rewrite (Hkrow i) by (auto; lia). rewrite xorb_false_r. auto.
      - intros Hkp. destruct (Hl k Hkp) as [A [B C]]. split; auto. split; [rewrite H1k; auto|]. intros; rewrite H1k; auto.
      - intros Hkp c Hc. rewrite H1k. auto. }
    destruct HI1 as (HO1 & _ & _).
    (* the rows other than k span the combinations that avoid j *)
    assert (HS1 : forall t, (forall k0, k0 < q -> t k0 = true -> live' k0 = true) -> exists e, e k = false /\ forall c, c < W -> comb q t K0 c = comb q e K1 c).
    { intros t Ht. destruct (HS t) as [e0 He0]. { intros k0 Hk0 E. apply Ht in E; auto. unfold live' in E. apply andb_true_iff in E. tauto. }
      (* coefficients through the row additions of step iii: row k is added to the rows of l *)
      set (e := fun i => if (i =? k)%nat then xorb (e0 k) (xsum q (fun i => lmem i l && e0 i)) else e0 i).
      assert (He : forall c, c < W -> comb q t K0 c = comb q e K1 c).
      { intros c Hc. rewrite He0 by auto. unfold comb.
        assert (X : xsum q (fun i => e0 i && ent K1 i c) = xorb (xsum q (fun i => e0 i && ent K i c)) (xsum q (fun i => lmem i l && e0 i) && ent K k c)).
        { rewrite <- xsum_and_r, <- xsum_xor. apply xsum_ext. intros i Hi. rewrite E1. destruct (lmem i l), (e0 i), (ent K i c), (ent K k c); auto. }
        assert (Y := xsum_change q k (fun i => e i && ent K1 i c) (fun i => e0 i && ent K1 i c) Hk). cbv beta in Y.
        assert (Ee : e k = xorb (e0 k) (xsum q (fun i => lmem i l && e0 i))) by (unfold e; rewrite Nat.eqb_refl; auto).
        rewrite Ee, H1k in Y. rewrite X in Y.
        assert (Y' := Y ltac:(intros i Hi Hik; unfold e; destruct (Nat.eqb_spec i k); [congruence|auto])). clear Y. revert Y'.
        destruct (xsum q (fun i => e i && ent K1 i c)), (xsum q (fun i => e0 i && ent K i c)), (xsum q (fun i => lmem i l && e0 i)), (e0 k), (ent K k c); simpl; congruence. }
      exists e. split; auto.
      assert (Hj0 := He (o + j) ltac:(lia)). unfold comb in Hj0.
      rewrite (xsum_ext q (fun k0 => t k0 && ent K0 k0 (o + j)) (fun k0 => t k0 && delta k0 j)) in Hj0 by (intros; rewrite K0id; auto).
      rewrite xsum_delta_r in Hj0 by auto. rewrite (xsum_single q k) in Hj0; auto.
      - rewrite H1k, Ek, andb_true_r in Hj0. rewrite <- Hj0. destruct (t j) eqn:E; auto. apply Ht in E; auto. unfold live' in E.
        rewrite Nat.eqb_refl, andb_false_r in E. discriminate.
      - intros i Hi Hik. rewrite H1j by auto. apply andb_false_r. }
    (* step iv *)
    set (K2 := upd k (rxor (row K1 k) (row K0 j)) K1).
    assert (S2 : shaped q W K2).
    { apply shaped_upd; auto. rewrite rxor_length; rewrite !(shaped_row q W); auto. }
    assert (E2 : forall i c, ent K2 i c = if (i =? k)%nat then xorb (ent K1 k c) (ent K0 j c) else ent K1 i c).
    { intros i c. unfold K2. rewrite !ent_row. rewrite row_upd by (destruct S1; lia). destruct (Nat.eqb_spec i k); auto.
      apply nth_rxor. rewrite !(shaped_row q W); auto. }
    assert (J2 : jinv live' K2).
    { split; auto.
      - intros i c Hi Hc. rewrite E2. rewrite (xsum_ext q _ (fun k0 => (if (i =? k)%nat then xorb (ent K1 k (o + k0)) (ent K0 j (o + k0)) else ent K1 i (o + k0)) && ent K0 k0 c))
          by (intros; rewrite E2; auto).
        destruct (Nat.eqb_spec i k); [|apply J1; auto].
        rewrite (j_comb _ _ J1 k c) by auto. rewrite <- (xsum_delta_l q j (fun k0 => ent K0 k0 c)) at 1 by auto. rewrite <- xsum_xor.
        apply xsum_ext. intros k0 Hk0. rewrite K0id by auto. destruct (ent K1 k (o + k0)), (delta j k0), (ent K0 k0 c); auto.
      - intros i k0 Hi Hk0. rewrite E2. unfold live'. destruct (Nat.eqb_spec k0 j) as [->|Hk0j].
        + destruct (Nat.eqb_spec i k). * rewrite H1k, Ek, K0id by auto. unfold delta. rewrite Nat.eqb_refl. discriminate.
          * rewrite H1j by auto. discriminate.
        + rewrite andb_true_r. destruct (Nat.eqb_spec i k).
          * rewrite K0id by auto. unfold delta. destruct (Nat.eqb_spec j k0); [congruence|]. rewrite xorb_false_r. apply J1; auto.
          * apply J1; auto. }
    assert (HO2 : others k p piv K2).
    { destruct HO1 as (A & B & C & D). split; [auto|]. split; [|split; [auto|]].
      - intros i Hi Hik. destruct (B i Hi Hik) as [X [Y Z]]. split; auto. split; [|intros j' Hj'];
          rewrite E2; (destruct (Nat.eqb_spec i k); [congruence|auto]).
      - intros i c Hi Hiq Hik Hc. rewrite E2. destruct (Nat.eqb_spec i k); [congruence|auto]. }
    (* step v *)
    assert (HR := reduce_spec live' k p piv q 0 K2 [] eq_refl Hk J2 HO2 ltac:(intros; lia)).
    fold K2. destruct (reduce_k d k (seq 0 q) K2 []) as [pivots K3]. destruct HR as (J3 & E3 & Z3 & Ep).
    rewrite app_nil_l, Nat.sub_0_r in Ep.
    assert (E31 : forall i c, i < q -> i <> k -> ent K3 i c = ent K1 i c).
    { intros i c Hi Hik. rewrite E3, E2 by auto. destruct (Nat.eqb_spec i k); [congruence|auto]. }
    assert (HS3 : forall t, (forall k0, k0 < q -> t k0 = true -> live' k0 = true) -> exists e, e k = false /\ forall c, c < W -> comb q t K0 c = comb q e K3 c).
    { intros t Ht. destruct (HS1 t Ht) as (e & He & H). exists e. split; auto. intros c Hc. rewrite H by auto. apply xsum_ext.
      intros i Hi. destruct (Nat.eq_dec i k); [subst; rewrite He; auto|]. rewrite E31; auto. }
    assert (HO3 : others k p piv K3).
    { destruct HO1 as (A & B & C & D). split; [auto|]. split; [|split; [auto|]].
      - intros i Hi Hik. destruct (B i Hi Hik) as [X [Y Z]]. split; auto. split; [|intros j' Hj']; rewrite E31; auto; lia.
      - intros i c Hi Hiq Hik Hc. rewrite E31; auto. }
    (* row k has become zero in the first block *)
    assert (Hk0 : forall c, c < d -> ent K3 k c = false).
    { destruct (HS3 (fun k0 => ent K3 k (o + k0))) as (e & He & H). { intros k0 Hk0 E. exact (j_live _ _ J3 k k0 Hk Hk0 E). }
      assert (H' : forall c, c < W -> ent K3 k c = comb q e K3 c) by (intros c Hc; rewrite (j_comb _ _ J3) by auto; apply H; auto).
      destruct HO3 as (A & B & C & D).
      assert (Hep : forall i, i < p -> e i = false).
      { intros i. induction i as [i IH] using lt_wf_ind. intros Hi. destruct (Nat.eq_dec i k); [subst; auto|].
        destruct (B i Hi n) as [X [Y Z]]. assert (E := H' (piv i) ltac:(lia)). rewrite Z3 in E by auto. unfold comb in E.
        rewrite (xsum_single q i) in E; [rewrite Y, andb_true_r in E; auto|lia|].
        intros r Hr Hri. destruct (Nat.eq_dec r k); [subst; rewrite He; auto|]. destruct (Nat.lt_ge_cases r p) as [Hrp|Hrp].
        - destruct (lt_eq_lt_dec r i) as [[Hlt|]|Hgt]; [rewrite IH; auto|congruence|].
          destruct (B r Hrp ltac:(auto)) as [_ [_ Zr]]. rewrite Zr by (apply C; auto). apply andb_false_r.
        - rewrite D by auto. apply andb_false_r. }
      intros c Hc. rewrite H' by lia. apply xsum_0. intros i Hi. destruct (Nat.lt_ge_cases i p); [rewrite Hep; auto|].
      destruct (Nat.eq_dec i k); [subst; rewrite He; auto|]. rewrite D by auto. apply andb_false_r. }
    assert (Epk : flatnonzero (firstn d (row K3 k)) = []).
    { apply flatnonzero_nil. intros c Hc. rewrite firstn_length in Hc. rewrite nth_firstn' by lia. apply Hk0. lia. }
    rewrite Epk. unfold new_position.
    assert (Epl : length pivots = if (k <? p)%nat then p - 1 else p).
    { rewrite Ep, map_length.
      assert (G : forall n a, length (filter (fun i => negb (i =? k)%nat) (seq a n)) = if ((a <=? k) && (k <? a + n))%nat then n - 1 else n).
      { induction n; intros a; cbn [seq filter].
        - destruct (Nat.leb_spec a k), (Nat.ltb_spec k (a + 0)); simpl; auto.
        - destruct (Nat.eqb_spec a k); cbn [negb length]; rewrite IHn;
            destruct (Nat.leb_spec (S a) k), (Nat.leb_spec a k), (Nat.ltb_spec k (S a + n)), (Nat.ltb_spec k (a + S n)); simpl; lia. }
      rewrite G. simpl. auto. }
    assert (HS3' : span live' K3) by (intros t Ht; destruct (HS3 t Ht) as (e & _ & He); eauto).
    destruct HO3 as (OA & OB & OC & OD).
    destruct (Nat.ltb_spec k (length pivots)) as [Hlt|Hge].
    - assert (Hkp : k < p - 1 /\ length pivots = p - 1) by (destruct (Nat.ltb_spec k p); lia).
      destruct Hkp as [Hkp Elp]. rewrite Elp.
      destruct (Z.eqb_spec (Z.of_nat (p - 1)) (Z.of_nat k)); [lia|].
      set (perm := reorder (seq 0 q) k (Z.of_nat (p - 1))).
      assert (HP := reorder_perm k (p - 1) Hkp ltac:(lia)). fold perm in HP.
      destruct (perm_kinv live' K3 perm HP J3 HS3') as (P1 & P2 & P3).
      eexists. split; [reflexivity|]. split; auto.
      assert (P3' : forall i c, i < q -> ent (map (row K3) perm) i c = ent K3 (sigma k (p - 1) i) c).
      { intros i c Hi. rewrite P3 by auto. unfold perm. rewrite reorder_nth by (auto; lia). auto. }
      exists (p - 1), (fun i => piv (sigma k (p - 1) i)).
      assert (Hsig : forall i, i < p - 1 -> sigma k (p - 1) i = if (i <? k)%nat then i else S i).
      { intros i Hi. unfold sigma. destruct (Nat.ltb_spec i k); auto. destruct (Nat.ltb_spec i (p - 1)); [auto|lia]. }
      split; [lia|]. split; [|split; [|split; [|discriminate]]].
      + intros i Hi. assert (Hs := Hsig i Hi). destruct (OB (sigma k (p - 1) i)) as [X [Y Z]].
        { rewrite Hs. destruct (Nat.ltb_spec i k); lia. } { rewrite Hs. destruct (Nat.ltb_spec i k); lia. }
        split; auto. split; [rewrite P3' by lia; auto|]. intros j' Hj'. rewrite P3' by lia. auto.
      + intros i i' Hi Hi'. rewrite (Hsig i), (Hsig i') by lia. apply OC; destruct (Nat.ltb_spec i k), (Nat.ltb_spec i' k); lia.
      + intros i c Hi Hiq Hc. rewrite P3' by auto. unfold sigma. destruct (Nat.ltb_spec i k); [lia|]. destruct (Nat.ltb_spec i (p - 1)); [lia|].
        destruct (Nat.eqb_spec i (p - 1)); [apply Hk0; auto|]. apply OD; auto; lia.
    - rewrite Z.eqb_refl. eexists. split; [reflexivity|]. split; auto.
      exists (length pivots), piv. split; [destruct (Nat.ltb_spec k p); lia|]. split; [|split; [|split; [|discriminate]]].
      + intros i Hi. apply OB; destruct (Nat.ltb_spec k p); lia.
      + intros i i' Hi Hi'. apply OC; auto. destruct (Nat.ltb_spec k p); lia.
      + intros i c Hi Hiq Hc. destruct (Nat.eq_dec i k); [subst; apply Hk0; auto|]. apply OD; auto. destruct (Nat.ltb_spec k p); lia.
  Qed.
End Kls.
