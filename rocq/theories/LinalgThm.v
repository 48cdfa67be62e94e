(** Correctness lemmas for the model of graphix/_linalg.py (Linalg.v). *)
From Coq Require Import Arith List Bool Lia.
From Verif Require Import Linalg.
Import ListNotations.

(** * Specification: right inverses, kernels, rank *)
Definition is_right_inverse (m n : nat) (A B : list (list bool)) : Prop :=
  forall i k, i < m -> k < m -> xsum n (fun j => ent A i j && ent B j k) = delta i k.
(** A x = b *)
Definition solves (m n : nat) (A : list (list bool)) (x b : nat -> bool) : Prop :=
  forall i, i < m -> xsum n (fun j => ent A i j && x j) = b i.
Definition in_kernel (m n : nat) (A : list (list bool)) (x : nat -> bool) : Prop := solves m n A x (fun _ => false).
(** [r] is the dimension of the row space *)
Definition is_rank (m n : nat) (A : list (list bool)) (r : nat) : Prop :=
  exists B, shaped r n B /\ indep r n B /\ forall v, in_rowspace r n B v <-> in_rowspace m n A v.

(** * General lemmas *)
Lemma xsum_split p n f : p <= n -> xsum n f = xorb (xsum p f) (xsum (n - p) (fun r => f (p + r))).
Proof.
  intros H. replace n with (p + (n - p)) at 1 by lia. generalize (n - p). clear. intros k.
  induction k; simpl.
  - rewrite Nat.add_0_r, xorb_false_r. auto.
  - rewrite Nat.add_succ_r. simpl. rewrite IHk. apply xorb_assoc.
Qed.
Lemma xsum_trunc p n f : p <= n -> (forall i, p <= i -> i < n -> f i = false) -> xsum n f = xsum p f.
Proof.
  intros H Hz. rewrite (xsum_split p) by auto. rewrite (xsum_0 (n - p)); [apply xorb_false_r|].
  intros. apply Hz; lia.
Qed.
Lemma finite_choice {X} (d : X) m (P : nat -> X -> Prop) : (forall i, i < m -> exists c, P i c) -> exists f, forall i, i < m -> P i (f i).
Proof.
  induction m; intros H. - exists (fun _ => d). lia.
  - destruct IHm as [f Hf]; [auto|]. destruct (H m ltac:(lia)) as [c Hc].
    exists (fun i => if (i =? m)%nat then c else f i). intros i Hi.
    destruct (Nat.eqb_spec i m); [subst; auto|]. apply Hf. lia.
Qed.
Lemma filter_prefix {X} (f : X -> bool) d : forall p l, p <= length l -> (forall i, i < p -> f (nth i l d) = true) ->
  (forall i, p <= i -> i < length l -> f (nth i l d) = false) -> filter f l = firstn p l.
Proof.
  intros p l; revert p; induction l as [|a l IH]; intros p Hp H1 H2; simpl in *.
  - destruct p; [auto|lia].
  - destruct p.
    + rewrite (H2 0) by lia. rewrite (IH 0); simpl; auto; try lia.
      intros i _ Hi. apply (H2 (S i)); lia.
    + rewrite (H1 0) by lia. simpl. f_equal. apply IH; [lia| |].
      * intros i Hi. apply (H1 (S i)). lia. * intros i Hi Hl. apply (H2 (S i)); lia.
Qed.
Lemma filter_suffix {X} (f : X -> bool) d : forall p l, p <= length l -> (forall i, i < p -> f (nth i l d) = false) ->
  (forall i, p <= i -> i < length l -> f (nth i l d) = true) -> filter f l = skipn p l.
Proof.
  intros p l; revert p; induction l as [|a l IH]; intros p Hp H1 H2; simpl in *.
  - destruct p; [auto|lia].
  - destruct p.
    + rewrite (H2 0) by lia. rewrite (IH 0); simpl; auto; try lia.
      intros i _ Hi. apply (H2 (S i)); lia.
    + rewrite (H1 0) by lia. simpl. apply IH; [lia| |].
      * intros i Hi. apply (H1 (S i)). lia. * intros i Hi Hl. apply (H2 (S i)); lia.
Qed.
Lemma hd_filter_seq f len j : j < len -> f j = true -> (forall j', j' < j -> f j' = false) -> hd 0 (filter f (seq 0 len)) = j.
Proof.
  intros Hj Hf Hz. replace len with (j + S (len - S j)) by lia. rewrite seq_app, filter_app. simpl.
  assert (E : filter f (seq 0 j) = []).
  { assert (G : forall l, (forall x, In x l -> f x = false) -> filter f l = []).
    { induction l; simpl; intros G; auto. rewrite G, IHl; auto. }
    apply G. intros x Hx. apply Hz. apply in_seq in Hx. lia. }
  rewrite E, Hf. auto.
Qed.
Lemma flatnonzero_lead m n A i j : shaped m n A -> i < m -> j < n -> leads A i j -> hd 0 (flatnonzero (row A i)) = j.
Proof.
  intros HA Hi Hj [He Hz]. unfold flatnonzero. rewrite (shaped_row m n) by auto.
  apply hd_filter_seq; auto.
Qed.
Lemma nth_firstn' {X} k (l : list X) i d : i < k -> nth i (firstn k l) d = nth i l d.
Proof. revert l i; induction k; intros l i H; [lia|]. destruct l, i; simpl; auto. apply IHk. lia. Qed.
Lemma nth_skipn' {X} k (l : list X) i d : nth i (skipn k l) d = nth (k + i) l d.
Proof. revert l; induction k; intros l; auto. destruct l; simpl; auto. destruct i; auto. Qed.

(** pivots are strictly increasing, so there are at most [nc] of them *)
Lemma inv_le full m nc p piv A : elim_inv full m nc p piv A -> p <= nc.
Proof.
  intros (Hp & Hl & Hinc & _ & _). assert (G : forall i, i < p -> i <= piv i).
  { induction i; intros Hi; [lia|]. assert (piv i < piv (S i)) by (apply Hinc; lia). assert (i <= piv i) by (apply IHi; lia). lia. }
  destruct p; [lia|]. destruct (Hl p ltac:(lia)). assert (H' := G p ltac:(lia)). lia.
Qed.
Lemma kernel_exists m n A : shaped m n A -> n < m ->
  exists c, (forall j, j < n -> comb m c A j = false) /\ exists k, k < m /\ c k = true.
Proof.
  intros HA Hmn. destruct (elimination_spec false n m n A HA (le_n n)) as [HR (p & piv & HI)].
  assert (Hp := inv_le _ _ _ _ _ _ HI).
  destruct (rops_comb _ _ _ _ HR HA) as (f & g & Hf & Hg & H0).
  set (c := g (delta (m - 1))). exists c. split.
  - intros j Hj. unfold c. rewrite <- Hg, comb_delta by lia. apply HI; lia.
  - destruct (existsb c (seq 0 m)) eqn:E.
    + apply existsb_exists in E. destruct E as (k & Hk & E). apply in_seq in Hk. exists k. split; [lia|auto].
    + assert (Hd : delta (m - 1) (m - 1) = false).
      { apply H0; [|lia]. intros k Hk. destruct (g (delta (m - 1)) k) eqn:E'; auto.
        assert (existsb c (seq 0 m) = true); [|congruence]. apply existsb_exists. exists k. split; auto. apply in_seq; lia. }
      unfold delta in Hd. rewrite Nat.eqb_refl in Hd. discriminate.
Qed.
Lemma indep_le r1 r2 n A B : shaped r2 n B -> indep r1 n A ->
  (forall v, in_rowspace r1 n A v -> in_rowspace r2 n B v) -> r1 <= r2.
Proof.
  intros HB HI HS. destruct (le_lt_dec r1 r2) as [|Hlt]; auto. exfalso.
  destruct (finite_choice (fun _ => false) r1 (fun i c => forall j, j < n -> ent A i j = comb r2 c B j)) as [S0 HS0].
  { intros i Hi. destruct (HS (ent A i)) as [c Hc]; eauto. exists (delta i). intros. rewrite comb_delta; auto. }
  set (SM := tab r1 (fun i => tab r2 (fun k => S0 i k))).
  destruct (kernel_exists r1 r2 SM (shaped_tab _ _ _) Hlt) as (c & Hc & k & Hk & Hck).
  assert (Hz : c k = false); [|congruence]. apply HI; auto.
  intros j Hj. unfold comb.
  rewrite (xsum_ext r1 _ (fun i => xsum r2 (fun q => (c i && S0 i q) && ent B q j))).
  - rewrite xsum_swap. apply xsum_0. intros q Hq. rewrite xsum_and_r.
    assert (E := Hc q Hq). unfold comb in E. 
    rewrite (xsum_ext r1 _ (fun k => c k && ent SM k q)); [rewrite E; auto|].
    intros i Hi. unfold SM. rewrite ent_tab by auto. auto.
  - intros i Hi. rewrite HS0 by auto. unfold comb. rewrite <- xsum_and_l. apply xsum_ext. intros. apply andb_assoc.
Qed.
Lemma rank_unique m n A r r' : is_rank m n A r -> is_rank m n A r' -> r = r'.
Proof.
  intros (B & HB & HI & HS) (B' & HB' & HI' & HS').
  assert (r <= r') by (apply (indep_le r r' n B B'); auto; intros v Hv; apply HS', HS, Hv).
  assert (r' <= r) by (apply (indep_le r' r n B' B); auto; intros v Hv; apply HS, HS', Hv). lia.
Qed.

(** * Rank *)
Lemma any_row_lead n A i j : j < n -> leads A i j -> any_row n (nth i A []) = true.
Proof. intros Hj [He _]. apply any_row_spec. exists j. split; auto. Qed.
Lemma nonzero_rows full m nc p piv A : length A = m -> elim_inv full m nc p piv A -> filter (any_row nc) A = firstn p A.
Proof.
  intros HL (Hp & Hl & _ & Hz & _). apply (filter_prefix _ []); [lia| |].
  - intros i Hi. destruct (Hl i Hi). eapply any_row_lead; eauto.
  - intros i Hi Hm. apply any_row_false. intros j Hj. apply Hz; auto. lia.
Qed.
Lemma zero_rows full m nc p piv A : length A = m -> elim_inv full m nc p piv A -> filter (fun r => negb (any_row nc r)) A = skipn p A.
Proof.
  intros HL (Hp & Hl & _ & Hz & _). apply (filter_suffix _ []); [lia| |].
  - intros i Hi. destruct (Hl i Hi). apply negb_false_iff. eapply any_row_lead; eauto.
  - intros i Hi Hm. apply negb_true_iff. apply any_row_false. intros j Hj. apply Hz; auto. lia.
Qed.
Lemma rank_correct A : mat_ok A -> is_rank (mrows A) (mcols A) (mdata A) (rank A).
Proof.
  destruct A as [m n D]. unfold mat_ok, rank, row_reduction. cbn [mrows mcols mdata]. intros HD.
  destruct (elimination_spec true n m n D HD (le_n n)) as [HR (p & piv & HI)].
  set (R := mdata (elimination true n (Mat m n D))) in *. assert (HRs := rops_shaped _ _ _ _ HR HD).
  rewrite (nonzero_rows true m n p piv) by (auto; apply HRs).
  assert (Hp : p <= m) by apply HI. destruct HRs as [HL Hrow].
  rewrite firstn_length, HL, Nat.min_l by auto.
  assert (He : forall i j, i < p -> ent (firstn p R) i j = ent R i j).
  { intros. unfold ent. rewrite nth_firstn' by auto. auto. }
  assert (Hc : forall c j, comb p c (firstn p R) j = comb p c R j).
  { intros. apply xsum_ext. intros. rewrite He; auto. }
  assert (Hc' : forall c j, j < n -> comb m c R j = comb p c R j).
  { intros c j Hj. apply xsum_trunc; auto. intros i Hi Him. destruct HI as (_ & _ & _ & Hz & _). rewrite Hz by auto. apply andb_false_r. }
  exists (firstn p R). split; [|split].
  - split; [rewrite firstn_length; lia|]. intros r Hr. apply Hrow. rewrite <- (firstn_skipn p R). apply in_or_app; auto.
  - intros c H k Hk. apply (inv_indep true m n p piv R (fun k => if (k <? p)%nat then c k else false)) in Hk as Hk'; auto.
    + destruct (Nat.ltb_spec k p); [auto|lia].
    + intros j Hj. rewrite Hc' by auto. rewrite <- (H j Hj), Hc. apply comb_ext. intros i Hi.
      destruct (Nat.ltb_spec i p); [auto|lia].
  - intros v. rewrite (rops_space m n D R v HR HD). split; intros (c & H); exists c; intros j Hj.
    + rewrite H, Hc, Hc'; auto. + rewrite H, Hc, Hc'; auto.
Qed.

(** * Augmented matrices *)
Lemma combine_len {X Y} (a : list X) (b : list Y) : length a = length b -> length (combine a b) = length a.
Proof. intros. rewrite combine_length. lia. Qed.
Lemma hstack_shaped m n n' A B : shaped m n A -> shaped m n' B -> shaped m (n + n') (hstack A B).
Proof.
  intros [LA HA] [LB HB]. split.
  - unfold hstack. rewrite map_length, combine_len; congruence.
  - intros r Hr. apply in_map_iff in Hr. destruct Hr as ([x y] & <- & Hin). simpl. rewrite app_length.
    apply in_combine_l in Hin as H1. apply in_combine_r in Hin as H2. rewrite HA, HB; auto.
Qed.
Lemma ent_hstack m n n' A B i j : shaped m n A -> shaped m n' B -> i < m ->
  ent (hstack A B) i j = if (j <? n)%nat then ent A i j else ent B i (j - n).
Proof.
  intros HA HB Hi. unfold ent, hstack.
  assert (E : nth i (map (fun p => fst p ++ snd p) (combine A B)) [] = nth i A [] ++ nth i B []).
  { change (@nil bool) with ((fun p : list bool * list bool => fst p ++ snd p) ([], [])) at 1. rewrite map_nth.
    rewrite combine_nth by (destruct HA, HB; congruence). auto. }
  rewrite E. assert (HL : length (nth i A []) = n) by (apply (shaped_row m n); auto).
  destruct (Nat.ltb_spec j n). - apply app_nth1. lia. - rewrite app_nth2 by lia. rewrite HL. auto.
Qed.
Lemma eye_shaped m : shaped m m (eye m). Proof. apply shaped_tab. Qed.
(** row operations on [A | I]: the right block records the operations *)
Lemma augmented m n A R : shaped m n A -> rops m (n + m) (hstack A (eye m)) R ->
  shaped m (n + m) R /\
  (forall i j, i < m -> j < n -> ent R i j = xsum m (fun k => ent R i (n + k) && ent A k j)) /\
  (exists S : (nat -> bool) -> nat -> bool,
     (forall c j, j < n -> comb m c A j = comb m (S c) R j) /\
     (forall c k, k < m -> c k = xsum m (fun r => S c r && ent R r (n + k)))) /\
  indep m (n + m) R.
Proof.
  intros HA HR. assert (HD := hstack_shaped m n m A (eye m) HA (eye_shaped m)).
  assert (HEl : forall k j, k < m -> j < n -> ent (hstack A (eye m)) k j = ent A k j).
  { intros. rewrite (ent_hstack m n m) by (auto; apply eye_shaped). destruct (Nat.ltb_spec j n); [auto|lia]. }
  assert (HEr : forall k j, k < m -> j < m -> ent (hstack A (eye m)) k (n + j) = delta k j).
  { intros. rewrite (ent_hstack m n m) by (auto; apply eye_shaped). destruct (Nat.ltb_spec (n + j) n); [lia|].
    replace (n + j - n) with j by lia. apply ent_eye; auto. }
  assert (HCl : forall c j, j < n -> comb m c (hstack A (eye m)) j = comb m c A j).
  { intros. apply xsum_ext. intros. rewrite HEl; auto. }
  assert (HCr : forall c j, j < m -> comb m c (hstack A (eye m)) (n + j) = c j).
  { intros c j Hj. unfold comb. rewrite (xsum_ext m _ (fun k => c k && delta k j)) by (intros; rewrite HEr; auto).
    apply xsum_delta_r; auto. }
  destruct (rops_comb _ _ _ _ HR HD) as (f & g & Hf & Hg & H0).
  split; [eapply rops_shaped; eauto|]. split; [|split].
  - intros i j Hi Hj. rewrite <- (comb_delta m R i j) by auto. rewrite Hg, HCl by auto. apply xsum_ext. intros k Hk.
    f_equal. rewrite <- (comb_delta m R i (n + k)) by auto. rewrite Hg, HCr by auto. auto.
  - exists f. split.
    + intros c j Hj. rewrite <- Hf, HCl; auto.
    + intros c k Hk. rewrite <- (HCr c k Hk). rewrite Hf. auto.
  - eapply rops_indep; eauto. intros c Hc k Hk. rewrite <- (HCr c k Hk). apply Hc. lia.
Qed.

(** * Right inverse *)
Lemma right_inverse_indep m n A B : is_right_inverse m n A B -> indep m n A.
Proof.
  intros HB c Hc k Hk.
  rewrite <- (xsum_delta_r m k c Hk).
  rewrite (xsum_ext m _ (fun i => xsum n (fun j => (c i && ent A i j) && ent B j k))).
  - rewrite xsum_swap. apply xsum_0. intros j Hj. rewrite xsum_and_r. 
    change (xsum m (fun i => c i && ent A i j)) with (comb m c A j). rewrite Hc; auto.
  - intros i Hi. rewrite <- HB by auto. rewrite <- xsum_and_l. apply xsum_ext. intros. apply andb_assoc.
Qed.
Lemma seq_snoc a n : seq a (S n) = seq a n ++ [a + n].
Proof. rewrite <- Nat.add_1_r, seq_app. auto. Qed.
Lemma fold_rows (piv : nat -> nat) (val : nat -> list bool) m0 n m Z : shaped n m Z ->
  (forall i, i < m0 -> length (val i) = m) ->
  (forall i, i < m0 -> piv i < n) -> (forall i i', i < m0 -> i' < m0 -> piv i = piv i' -> i = i') ->
  let R := fold_left (fun R i => upd (piv i) (val i) R) (seq 0 m0) Z in
  shaped n m R /\ (forall i, i < m0 -> row R (piv i) = val i) /\
  (forall j, (forall i, i < m0 -> piv i <> j) -> row R j = row Z j).
Proof.
  intros HZ. induction m0; intros Hv Hp Hinj.
  - simpl. repeat split; auto; try apply HZ. lia.
  - rewrite seq_snoc, fold_left_app. cbn [fold_left]. simpl (0 + m0).
    destruct IHm0 as (H1 & H2 & H3); auto.
    set (R := fold_left (fun R i => upd (piv i) (val i) R) (seq 0 m0) Z) in *.
    assert (Hl : piv m0 < length R) by (destruct H1 as [-> _]; auto).
    split; [|split].
    + apply shaped_upd; auto.
    + intros i Hi. rewrite row_upd by auto. destruct (Nat.eqb_spec (piv i) (piv m0)) as [E|E].
      * apply Hinj in E; auto; subst; auto.
      * apply H2. assert (i <> m0) by congruence. lia.
    + intros j Hj. rewrite row_upd by auto. destruct (Nat.eqb_spec j (piv m0)) as [E|E].
      * exfalso. apply (Hj m0); auto. * apply H3. intros i Hi. apply Hj. lia.
Qed.

Lemma right_inverse_correct A : mat_ok A ->
  match right_inverse A with
  | Some B => mrows B = mcols A /\ mcols B = mrows A /\ mat_ok B /\ is_right_inverse (mrows A) (mcols A) (mdata A) (mdata B)
  | None => ~ indep (mrows A) (mcols A) (mdata A)
  end.
Proof.
  destruct A as [m n D]. unfold mat_ok. cbn [mrows mcols mdata]. intros HD. unfold right_inverse. cbn [mrows mcols mdata].
  destruct (Nat.ltb_spec n m) as [Hlt|Hle].
  { intros HI. destruct (kernel_exists m n D HD Hlt) as (c & Hc & k & Hk & E). rewrite (HI c Hc k Hk) in E. discriminate. }
  unfold row_reduction.
  assert (HH := hstack_shaped m n m D (eye m) HD (eye_shaped m)).
  destruct (elimination_spec true n m (n + m) _ HH ltac:(lia)) as [HR (p & piv & HI)].
  set (R := mdata (elimination true n (Mat m (n + m) (hstack D (eye m))))) in *.
  destruct (augmented m n D R HD HR) as (HRs & HT & (S & HS1 & HS2) & Hind).
  rewrite (nonzero_rows true m n p piv) by (auto; apply HRs).
  assert (Hp : p <= m) by apply HI.
  rewrite firstn_length. destruct HRs as [HL Hrow]. assert (HRs : shaped m (n + m) R) by (split; auto).
  rewrite HL, Nat.min_l by auto.
  destruct (Nat.eqb_spec m p) as [E|E]; cbn [negb].
  - subst p. cbn [mrows mcols mdata]. split; [auto|]. split; [auto|].
    destruct HI as (_ & Hl & Hinc & _ & Hful). specialize (Hful eq_refl).
    assert (Hinj : forall i i', i < m -> i' < m -> piv i = piv i' -> i = i').
    { intros i i' Hi Hi' E. destruct (lt_eq_lt_dec i i') as [[H|H]|H]; auto; apply Hinc in H; auto; lia. }
    destruct (fold_rows piv (fun i => skipn n (row R i)) m n m (tab n (fun _ => tab m (fun _ => false)))) as (G1 & G2 & G3); auto.
    { apply (shaped_tab n m (fun _ _ => false)). }
    { intros i Hi. rewrite skipn_length, (shaped_row m (n + m)) by auto. lia. }
    { intros i Hi. apply Hl; auto. }
    assert (Ef : fold_left (fun R0 i => upd (hd 0 (flatnonzero (row R i))) (skipn n (row R i)) R0) (seq 0 m) (tab n (fun _ => tab m (fun _ => false)))
       = fold_left (fun R0 i => upd (piv i) (skipn n (row R i)) R0) (seq 0 m) (tab n (fun _ => tab m (fun _ => false)))).
    { assert (G : forall l Z, (forall i, In i l -> i < m) -> fold_left (fun R0 i => upd (hd 0 (flatnonzero (row R i))) (skipn n (row R i)) R0) l Z
         = fold_left (fun R0 i => upd (piv i) (skipn n (row R i)) R0) l Z).
      { induction l; simpl; intros Z Hin; auto. rewrite IHl by auto. f_equal. f_equal.
        destruct (Hl a ltac:(auto)) as [Hlt He]. apply (flatnonzero_lead m (n + m)); auto. lia. }
      apply G. intros i Hi. apply in_seq in Hi. lia. }
    rewrite Ef.
    set (B := fold_left (fun R0 i => upd (piv i) (skipn n (row R i)) R0) (seq 0 m) (tab n (fun _ => tab m (fun _ => false)))) in *.
    split; auto.
    assert (HRB : forall r k, r < m -> xsum n (fun j => ent R r j && ent B j k) = ent R r (n + k)).
    { intros r k Hr. destruct (Hl r Hr) as [Hlt [He _]].
      rewrite (xsum_single n (piv r)); auto.
      - rewrite He. simpl. rewrite ent_row. rewrite G2 by auto. rewrite nth_skipn'. auto.
      - intros j Hj Hne. destruct (existsb (fun i => (piv i =? j)%nat) (seq 0 m)) eqn:E.
        + apply existsb_exists in E. destruct E as (i & Hi & E). apply in_seq in Hi. apply Nat.eqb_eq in E. subst j.
          rewrite Hful; auto; lia.
        + rewrite (ent_row B). rewrite G3.
          * change (nth k (row (tab n (fun _ => tab m (fun _ => false))) j) false) with (ent (tab n (fun _ => tab m (fun _ => false))) j k).
            destruct (Nat.lt_ge_cases k m).
            -- rewrite (ent_tab n m (fun _ _ => false)) by auto. apply andb_false_r.
            -- unfold ent at 2. rewrite nth_tab by auto. rewrite nth_tab_out by auto. apply andb_false_r.
          * intros i Hi Eq. assert (existsb (fun i => (piv i =? j)%nat) (seq 0 m) = true); [|congruence].
            apply existsb_exists. exists i. split; [apply in_seq; lia|]. apply Nat.eqb_eq; auto. }
    intros i k Hi Hk.
    rewrite (xsum_ext n _ (fun j => xsum m (fun r => S (delta i) r && (ent R r j && ent B j k)))).
    + rewrite xsum_swap. rewrite (HS2 (delta i) k Hk). apply xsum_ext. intros r Hr. rewrite xsum_and_l, HRB; auto.
    + intros j Hj. rewrite <- (comb_delta m D i j Hi). rewrite HS1 by auto. unfold comb. rewrite <- xsum_and_r.
      apply xsum_ext. intros. symmetry. apply andb_assoc.
  - intros HI'. assert (Hpm : p < m) by lia.
    assert (Hz : forall k, k < m -> ent R p (n + k) = false).
    { apply (HI' (fun k => ent R p (n + k))). intros j Hj. unfold comb. rewrite <- HT by auto. apply HI; auto. }
    assert (Hd : delta p p = false).
    { apply (Hind (delta p)); auto. intros j Hj. rewrite comb_delta by auto.
      destruct (Nat.lt_ge_cases j n); [apply HI; auto|]. replace j with (n + (j - n)) by lia. apply Hz. lia. }
    unfold delta in Hd. rewrite Nat.eqb_refl in Hd. discriminate.
Qed.

(** * Null space *)
Lemma transpose_shaped A : shaped (mcols A) (mrows A) (mdata (transpose A)).
Proof. apply shaped_tab. Qed.
Lemma ent_transpose A i j : i < mrows A -> j < mcols A -> ent (mdata (transpose A)) j i = ent (mdata A) i j.
Proof. intros. unfold transpose. cbn [mdata]. rewrite ent_tab; auto. Qed.
Lemma null_space_correct A : mat_ok A ->
  let N := null_space A in
  mcols N = mcols A /\ mat_ok N /\ indep (mrows N) (mcols A) (mdata N) /\
  forall x, in_kernel (mrows A) (mcols A) (mdata A) x <-> in_rowspace (mrows N) (mcols A) (mdata N) x.
Proof.
  destruct A as [m n D]. unfold mat_ok. cbn [mrows mcols mdata]. intros HD. unfold null_space. cbn [mrows mcols mdata].
  assert (HTs : shaped n m (mdata (transpose (Mat m n D)))) by apply (transpose_shaped (Mat m n D)).
  assert (HTe : forall i j, i < m -> j < n -> ent (mdata (transpose (Mat m n D))) j i = ent D i j) by (intros; apply (ent_transpose (Mat m n D)); auto).
  set (T := mdata (transpose (Mat m n D))) in *. unfold gauss_elimination.
  assert (HH := hstack_shaped n m n T (eye n) HTs (eye_shaped n)).
  destruct (elimination_spec false m n (m + n) _ HH ltac:(lia)) as [HR (p & piv & HI)].
  set (R := mdata (elimination false m (Mat n (m + n) (hstack T (eye n))))) in *.
  destruct (augmented n m T R HTs HR) as (HRs & HTT & (S & HS1 & HS2) & Hind).
  rewrite (zero_rows false n m p piv) by (auto; apply HRs).
  assert (Hp : p <= n) by apply HI.
  destruct HRs as [HL Hrow]. assert (HRs : shaped n (m + n) R) by (split; auto).
  rewrite map_length, skipn_length, HL.
  set (N := map (skipn m) (skipn p R)).
  assert (HN : forall r k, r < n - p -> ent N r k = ent R (p + r) (m + k)).
  { intros r k Hr. unfold ent, N.
    replace (nth r (map (skipn m) (skipn p R)) []) with (skipn m (nth r (skipn p R) [])).
    - rewrite nth_skipn', nth_skipn'. auto.
    - rewrite (nth_indep (map (skipn m) (skipn p R)) [] (skipn m [])) by (rewrite map_length, skipn_length; lia). rewrite map_nth. auto. }
  split; [auto|]. split; [|split].
  - split. + unfold N. rewrite map_length, skipn_length. lia.
    + intros r Hr. apply in_map_iff in Hr. destruct Hr as (r0 & <- & Hr0). rewrite skipn_length.
      rewrite Hrow; [lia|]. rewrite <- (firstn_skipn p R). apply in_or_app; auto.
  - intros c Hc k Hk.
    assert (G : (fun i => if (i <? p)%nat then false else c (i - p)) (p + k) = false).
    { apply (Hind (fun i => if (i <? p)%nat then false else c (i - p))); [|lia]. intros j Hj. unfold comb. rewrite (xsum_split p) by auto.
      rewrite (xsum_0 p) by (intros i Hi; destruct (Nat.ltb_spec i p); [auto|lia]). rewrite xorb_false_l.
      destruct (Nat.lt_ge_cases j m) as [Hjm|Hjm].
      - apply xsum_0. intros r Hr. assert (Hz : ent R (p + r) j = false) by (apply HI; auto; lia). rewrite Hz. apply andb_false_r.
      - rewrite <- (Hc (j - m)) by lia. apply xsum_ext. intros r Hr. rewrite HN by auto.
        destruct (Nat.ltb_spec (p + r) p); [lia|]. replace (p + r - p) with r by lia. replace (m + (j - m)) with j by lia. auto. }
    cbv beta in G. destruct (Nat.ltb_spec (p + k) p); [lia|]. replace (p + k - p) with k in G by lia. auto.
  - intros x. split.
    + intros Hx. exists (fun r => S x (p + r)). intros k Hk. rewrite (HS2 x k Hk). rewrite (xsum_split p) by auto.
      assert (Hz : forall i, i < p -> S x i = false).
      { apply (inv_indep false n m p piv R (S x) HI). intros i Hi. rewrite <- HS1 by auto.
        rewrite <- (Hx i Hi). apply xsum_ext. intros j Hj. rewrite HTe by auto. apply andb_comm. }
      rewrite (xsum_0 p) by (intros i Hi; rewrite Hz; auto). rewrite xorb_false_l.
      apply xsum_ext. intros r Hr. rewrite HN by auto. auto.
    + intros (c & Hc) i Hi.
      rewrite (xsum_ext n _ (fun j => xsum (n - p) (fun r => c r && (ent R (p + r) (m + j) && ent T j i)))).
      * rewrite xsum_swap. apply xsum_0. intros r Hr. rewrite xsum_and_l. rewrite <- HTT by (auto; lia).
        assert (Hz : ent R (p + r) i = false) by (apply HI; auto; lia). rewrite Hz. apply andb_false_r.
      * intros j Hj. rewrite Hc, <- HTe by auto. unfold comb. rewrite andb_comm, <- xsum_and_r. apply xsum_ext.
        intros r Hr. rewrite HN by auto. symmetry. apply andb_assoc.
Qed.

(** * Product *)
Lemma fold_mul l B n0 (r : list bool) : forall acc, length acc = n0 -> (forall k, In k l -> length (row B k) = n0) ->
  let acc' := fold_left (fun acc k => if nth k r false then rxor acc (row B k) else acc) l acc in
  length acc' = n0 /\ forall j, nth j acc' false = fold_left (fun b k => xorb b (nth k r false && ent B k j)) l (nth j acc false).
Proof.
  induction l as [|k l IH]; simpl; intros acc Ha HB; auto.
  destruct (nth k r false) eqn:E.
  - destruct (IH (rxor acc (row B k))) as [H1 H2]; auto.
    { rewrite rxor_length; auto. rewrite HB; auto. }
    split; auto. intros j. rewrite H2. f_equal. simpl. rewrite nth_rxor by (rewrite HB; auto). auto.
  - destruct (IH acc) as [H1 H2]; auto. split; auto. intros j. rewrite H2. simpl. rewrite xorb_false_r. auto.
Qed.
Lemma fold_xsum f n b : fold_left (fun b k => xorb b (f k)) (seq 0 n) b = xorb b (xsum n f).
Proof.
  induction n; [simpl; symmetry; apply xorb_false_r|].
  rewrite seq_snoc, fold_left_app, IHn. simpl. apply xorb_assoc.
Qed.
Lemma mat_mul_correct A B : mat_ok A -> mat_ok B -> mcols A = mrows B ->
  let P := mat_mul A B in
  mrows P = mrows A /\ mcols P = mcols B /\ mat_ok P /\
  forall i j, i < mrows A -> j < mcols B -> ent (mdata P) i j = xsum (mcols A) (fun k => ent (mdata A) i k && ent (mdata B) k j).
Proof.
  destruct A as [m l D], B as [l' n E]. unfold mat_ok, mat_mul. cbn [mrows mcols mdata]. intros HD HE <-.
  assert (HB : forall k, In k (seq 0 l) -> length (row E k) = n).
  { intros k Hk. apply in_seq in Hk. apply (shaped_row l n); auto. lia. }
  split; [auto|]. split; [auto|]. split.
  - split. + rewrite map_length. apply HD.
    + intros r Hr. apply in_map_iff in Hr. destruct Hr as (r0 & <- & _).
      apply (fold_mul (seq 0 l) E n r0 (tab n (fun _ => false))); auto. apply tab_length.
  - intros i j Hi Hj. unfold ent at 1.
    rewrite (nth_indep _ [] (fold_left (fun acc k => if nth k [] false then rxor acc (row E k) else acc) (seq 0 l) (tab n (fun _ => false))))
      by (rewrite map_length; destruct HD; lia).
    rewrite (map_nth (fun r => fold_left (fun acc k => if nth k r false then rxor acc (row E k) else acc) (seq 0 l) (tab n (fun _ => false)))).
    destruct (fold_mul (seq 0 l) E n (nth i D []) (tab n (fun _ => false)) (tab_length _ _) HB) as [_ H2].
    rewrite H2, nth_tab by auto. rewrite fold_xsum, xorb_false_l. auto.
Qed.

(** * Back substitution *)
Lemma updb_length i b x : length (updb i b x) = length x.
Proof. revert i; induction x; destruct i; simpl; auto. Qed.
Lemma nth_updb i b x k : i < length x -> nth k (updb i b x) false = if (k =? i)%nat then b else nth k x false.
Proof. revert i k; induction x as [|a x IH]; intros i k H; simpl in H; [lia|]. destruct i, k; simpl; auto. apply IH. lia. Qed.
Lemma fold_acc (r x : list bool) q n : q <= n -> (forall k, k < q -> nth k r false = false) ->
  fold_left (fun acc k => if nth k r false then xorb acc (nth k x false) else acc) (seq q (n - q)) false
  = xsum n (fun k => nth k r false && nth k x false).
Proof.
  intros Hq Hz. rewrite (xsum_split q) by auto. rewrite (xsum_0 q) by (intros; rewrite Hz; auto). rewrite xorb_false_l.
  generalize (n - q). intros d. clear.
  induction d; [auto|]. rewrite seq_snoc, fold_left_app. cbn [fold_left]. rewrite IHd. simpl.
  destruct (nth (q + d) r false); simpl; auto. rewrite xorb_false_r. auto.
Qed.
Lemma first_zero_spec A : first_zero A <= length A /\ (forall i, i < first_zero A -> existsb (fun b => b) (row A i) = true) /\
  (first_zero A < length A -> existsb (fun b => b) (row A (first_zero A)) = false).
Proof.
  unfold row. induction A as [|r A (H1 & H2 & H3)]; cbn [first_zero].
  - simpl. repeat split; lia.
  - destruct (existsb (fun b => b) r) eqn:E; simpl.
    + repeat split; [lia| |]. * intros [|i] Hi; auto. apply H2. lia. * intros. apply H3. lia.
    + repeat split; try lia. auto.
Qed.
Lemma first_true (f : nat -> bool) n : (exists j, j < n /\ f j = true) -> exists j, j < n /\ f j = true /\ forall j', j' < j -> f j' = false.
Proof.
  induction n; intros (j & Hj & E); [lia|].
  destruct (existsb f (seq 0 n)) eqn:E'.
  - destruct IHn as (j0 & H0 & H1 & H2).
    { apply existsb_exists in E'. destruct E' as (x & Hx & Ex). apply in_seq in Hx. exists x. split; auto. lia. }
    exists j0. auto.
  - assert (G : forall x, x < n -> f x = false).
    { intros x Hx. destruct (f x) eqn:Ex; auto. assert (existsb f (seq 0 n) = true); [|congruence].
      apply existsb_exists. exists x. split; auto. apply in_seq. lia. }
    exists j. assert (j = n). { destruct (Nat.eq_dec j n); auto. rewrite G in E; [discriminate|lia]. }
    subst. auto.
Qed.
Lemma existsb_any n r : length r = n -> existsb (fun b => b) r = any_row n r.
Proof. intros <-. unfold any_row. rewrite firstn_all. auto. Qed.
Lemma solve_correct_gen A b : mat_ok A -> length b = mrows A -> echelon (mrows A) (mcols A) (mdata A) ->
  (forall i, i < mrows A -> (forall j, j < mcols A -> ent (mdata A) i j = false) -> nth i b false = false) ->
  length (solve_f2 A b) = mcols A /\
  solves (mrows A) (mcols A) (mdata A) (fun j => nth j (solve_f2 A b) false) (fun i => nth i b false).
Proof.
  destruct A as [m n D]. unfold mat_ok, solve_f2. cbn [mrows mcols mdata]. intros HD Hb Hech Hx.
  destruct (first_zero_spec D) as (F1 & F2 & F3). set (p := first_zero D) in *. clearbody p.
  assert (Hlen : length D = m) by apply HD. rewrite Hlen in *.
  assert (Hz : forall i j, p <= i -> i < m -> j < n -> ent D i j = false).
  { assert (Hzp : p < m -> forall j, j < n -> ent D p j = false).
    { intros Hp j Hj. specialize (F3 Hp). rewrite (existsb_any n) in F3 by (apply (shaped_row m n); auto).
      rewrite any_row_false in F3. apply F3; auto. }
    intros i j Hi Him Hj. destruct (Nat.eq_dec i p); [subst; apply Hzp; auto|].
    destruct (ent D i j) eqn:E; auto. destruct (Hech p i j) as (j0 & Hj0 & [He _]); auto; [lia|].
    rewrite Hzp in He; [discriminate| |]; lia. }
  assert (Hlead : forall i, i < p -> exists j, j < n /\ leads D i j).
  { intros i Hi. specialize (F2 i Hi). rewrite (existsb_any n) in F2 by (apply (shaped_row m n); auto; lia).
    apply any_row_spec in F2. apply first_true in F2. destruct F2 as (j & H1 & H2 & H3). exists j. split; auto. split; auto. }
  (* back substitution from row q down to 0 *)
  assert (G : forall q, q <= p -> forall y, length y = n ->
     (forall i, q <= i -> i < p -> xsum n (fun j => ent D i j && nth j y false) = nth i b false) ->
     (forall i j l, i < q -> leads D i l -> j <= l -> nth j y false = false) ->
     let y' := fold_left (solve_step n D b) (rev (seq 0 q)) y in
     length y' = n /\ forall i, i < p -> xsum n (fun j => ent D i j && nth j y' false) = nth i b false).
  { induction q; intros Hq y Hy Hs Hyz.
    - simpl. split; auto. intros i Hi. apply Hs; auto. lia.
    - rewrite seq_snoc, rev_app_distr. cbn [rev app fold_left]. simpl (0 + q).
      destruct (Hlead q ltac:(lia)) as (l & Hl & Hld).
      set (v := xorb (nth q b false) (xsum n (fun k => nth k (row D q) false && nth k y false))).
      assert (Es : solve_step n D b y q = updb l v y).
      { unfold solve_step. cbv zeta. rewrite (flatnonzero_lead m n D q l) by (auto; lia).
        rewrite fold_acc by (try lia; apply Hld). auto. }
      rewrite Es.
      apply IHq; [lia|rewrite updb_length; auto| |].
      + intros i Hi Hip. destruct (Nat.eq_dec i q).
        * subst i. 
          assert (Hc := xsum_change n l (fun j => ent D q j && nth j (updb l v y) false) (fun k => ent D q k && nth k y false) Hl).
          cbv beta in Hc. rewrite !nth_updb, Nat.eqb_refl in Hc by lia. destruct Hld as [He Hlz]. rewrite He in Hc.
          rewrite (Hyz q l l) in Hc; auto; [|split; auto].
          assert (Hc' : xorb (xsum n (fun j => ent D q j && nth j (updb l v y) false)) (xsum n (fun k => ent D q k && nth k y false)) = v).
          { rewrite Hc. - simpl. destruct v; auto.
            - intros i0 _ Hi0. rewrite nth_updb by lia. destruct (Nat.eqb_spec i0 l); auto; congruence. }
          unfold v in Hc' at 2. change (fun k => nth k (row D q) false && nth k y false) with (fun k => ent D q k && nth k y false) in Hc'.
          revert Hc'. destruct (xsum n (fun j => ent D q j && nth j (updb l v y) false)), (xsum n (fun k => ent D q k && nth k y false)), (nth q b false); simpl; congruence.
        * rewrite <- (Hs i) by lia. apply xsum_ext. intros j Hj. rewrite nth_updb by lia.
          destruct (Nat.eqb_spec j l); auto. subst j.
          assert (He : ent D i l = false); [|rewrite He; auto].
          destruct (ent D i l) eqn:E; auto. destruct (Hech q i l) as (j0 & Hj0 & [He' _]); auto; try lia.
          destruct Hld as [_ Hlz]. rewrite Hlz in He'; auto; discriminate.
      + intros i j l' Hi Hl' Hj. rewrite nth_updb by lia. destruct (Nat.eqb_spec j l).
        * subst j. exfalso. destruct (Hech i q l) as (j0 & Hj0 & Hl0); auto; try lia. { apply Hld. }
          assert (j0 = l'). { destruct Hl0 as [a1 a2], Hl' as [b1 b2]. destruct (lt_eq_lt_dec j0 l') as [[H|H]|H]; auto.
            - rewrite b2 in a1; auto; discriminate. - rewrite a2 in b1; auto; discriminate. }
          lia.
        * apply (Hyz i j l'); auto. }
  destruct (G p (le_n p) (tab n (fun _ => false))) as [G1 G2].
  - apply tab_length. - lia.
  - intros i j l Hi Hl Hj. destruct (Nat.lt_ge_cases j n). + rewrite nth_tab; auto. + rewrite nth_tab_out; auto.
  - split; auto. intros i Hi. destruct (Nat.lt_ge_cases i p); auto.
    rewrite xsum_0 by (intros; rewrite Hz; auto). symmetry. apply Hx; auto.
Qed.
Lemma solve_correct A b x : mat_ok A -> length b = mrows A -> echelon (mrows A) (mcols A) (mdata A) ->
  solves (mrows A) (mcols A) (mdata A) x (fun i => nth i b false) ->
  length (solve_f2 A b) = mcols A /\
  solves (mrows A) (mcols A) (mdata A) (fun j => nth j (solve_f2 A b) false) (fun i => nth i b false).
Proof.
  intros H1 H2 H3 H4. apply solve_correct_gen; auto. intros i Hi Hz. rewrite <- (H4 i Hi). apply xsum_0. intros k Hk. rewrite Hz; auto.
Qed.
