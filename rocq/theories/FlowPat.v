(** From flows to XZ-corrections to runnable deterministic patterns. *)
From Coq Require Import Reals Arith List Bool Lia Permutation Setoid Morphisms.
From Verif Require Import Cplx Mat2 NSet Fundamentals CliffordDb Clifford Measure QState Layer Pattern Standardize FlowSem FlowDet OpenGraph FlowSpec Flow FlowWF.
Import ListNotations.

(** * Compatible total orders *)
(** the order contains every measured node once, and never measures a node
    before one that precedes it in the partial order *)
Definition order_compat (og : opengraph) (ls : list nset) (order : list nat) : Prop :=
  NoDup order /\ (forall n, In n order <-> In n (g_nodes (og_graph og)) /\ ~ In n (og_out og)) /\
  forall a u b v c, order = a ++ u :: b ++ v :: c -> ~ prec ls v u.

(** non-decreasing layer indices *)
Fixpoint monotone (idx : nat -> nat -> Prop) (lo : nat) (order : list nat) : Prop :=
  match order with [] => True | n :: o => exists i, lo <= i /\ idx i n /\ monotone idx i o end.
Lemma advance_spec n ls : (forall i j, in_layer ls i n -> in_layer ls j n -> i = j) ->
  match advance n ls with
  | None => forall i, ~ in_layer ls i n
  | Some r => exists i, r = skipn i ls /\ in_layer ls i n
  end.
Proof.
  induction ls as [|l ls IH]; intros D; cbn [advance].
  - intros i (x & H & _). destruct i; discriminate.
  - destruct (mem n l) eqn:E; [exists 0; split; auto; exists l; auto|].
    assert (D' : forall i j, in_layer ls i n -> in_layer ls j n -> i = j) by (intros i j A B; assert (S i = S j) by (apply D; auto); lia).
    specialize (IH D'). destruct (advance n ls).
    + destruct IH as (i & -> & H). exists (S i). auto.
    + intros [|i] H; [destruct H as (x & [= <-] & K); congruence|]. apply (IH i). auto.
Qed.
Lemma skipn_skipn {A} i k (l : list A) : skipn i (skipn k l) = skipn (i + k) l.
Proof.
  revert l. induction k as [|k IH]; intros l; [rewrite Nat.add_0_r; auto|]. replace (i + S k) with (S (i + k)) by lia.
  destruct l; [rewrite !skipn_nil; auto|apply IH].
Qed.
Lemma compat_spec ls order k : (forall i j n, in_layer ls i n -> in_layer ls j n -> i = j) ->
  compat order (skipn k ls) = true <-> monotone (in_layer ls) k order.
Proof.
  intros D. revert k. induction order as [|n order IH]; intros k; cbn [compat monotone]; [tauto|].
  pose proof (advance_spec n (skipn k ls)) as A. destruct (advance n (skipn k ls)) as [r|].
  - destruct A as (i & -> & Hi); [intros i j; rewrite !in_layer_skipn; intros X Y; pose proof (D _ _ _ X Y); lia|].
    apply in_layer_skipn in Hi. rewrite skipn_skipn, IH. split.
    + intros H. exists (i + k). repeat split; auto; [lia|]. replace (i + k) with (k + i) by lia; auto.
    + intros (j & Hj & Kj & M). pose proof (D _ _ _ Hi Kj). subst j. replace (i + k) with (k + i) by lia; auto.
  - split; [discriminate|]. intros (j & Hj & Kj & _). exfalso. apply (A) with (j - k).
    + intros x y; rewrite !in_layer_skipn; intros X Y; pose proof (D _ _ _ X Y); lia.
    + apply in_layer_skipn. replace (k + (j - k)) with j by lia. auto.
Qed.
Lemma in_layer_lt ls i n : in_layer ls i n -> i < length ls.
Proof. intros (l & H & _). apply nth_error_Some. congruence. Qed.
Lemma nth_error_rev {A} (l : list A) i : i < length l -> nth_error (rev l) i = nth_error l (length l - S i).
Proof.
  intros H. destruct (nth_error l (length l - S i)) as [x|] eqn:E.
  - apply (nth_error_nth _ _ x) in E. rewrite <- E, <- rev_nth by auto. apply nth_error_nth'. rewrite rev_length; auto.
  - apply nth_error_None in E. lia.
Qed.
Lemma in_layer_rev ls i n : in_layer (rev ls) i n <-> i < length ls /\ in_layer ls (length ls - S i) n.
Proof.
  unfold in_layer. split.
  - intros (l & H & K). assert (i < length ls) by (rewrite <- rev_length; apply nth_error_Some; congruence). split; auto. rewrite nth_error_rev in H by auto. eauto.
  - intros (L & l & H & K). rewrite <- nth_error_rev in H by auto. eauto.
Qed.
Lemma monotone_pairs (idx : nat -> nat -> Prop) lo order : (forall i j n, idx i n -> idx j n -> i = j) ->
  monotone idx lo order <->
  (forall n, In n order -> exists i, lo <= i /\ idx i n) /\
  (forall a u b v c i j, order = a ++ u :: b ++ v :: c -> idx i u -> idx j v -> i <= j).
Proof.
  intros D. revert lo. induction order as [|x o IH]; intros lo; cbn [monotone].
  - split; auto. intros _. split; [intros n []|]. intros [|] u b v c i j; discriminate.
  - split.
    + intros (i & Hi & Hx & M). apply IH in M. destruct M as [M1 M2]. split.
      * intros n [<-|Hn]; [eauto|]. destruct (M1 n Hn) as (j & Hj & K). exists j. split; auto. lia.
      * intros [|y a] u b v c i' j' E Hu Hv; cbn in E; injection E as -> E.
        -- assert (In v o) by (rewrite E; apply in_or_app; right; left; auto). destruct (M1 v H) as (j & Hj & K).
           rewrite (D _ _ _ Hu Hx), (D _ _ _ Hv K). auto.
        -- eapply M2; eauto.
    + intros [M1 M2]. destruct (M1 x (or_introl eq_refl)) as (i & Hi & Hx). exists i. repeat split; auto. apply IH. split.
      * intros n Hn. destruct (M1 n (or_intror Hn)) as (j & Hj & K). exists j. split; auto.
        apply in_split in Hn. destruct Hn as (b & c & ->). apply (M2 [] x b n c); auto.
      * intros a u b v c i' j' E. apply (M2 (x :: a) u b v c). cbn. rewrite E. auto.
Qed.

Section Xz.
Context (og : opengraph) (ls : list nset) (Hog : og_ok og) (Ho : order_ok og ls).
Let ls' := skipn (shift og) ls.
Lemma ls'_disj i j n : in_layer ls' i n -> in_layer ls' j n -> i = j.
Proof. unfold ls'. rewrite !in_layer_skipn. intros A B. pose proof (ord_disj _ _ Ho _ _ _ A B). lia. Qed.
Lemma rev_disj i j n : in_layer (rev ls') i n -> in_layer (rev ls') j n -> i = j.
Proof. rewrite !in_layer_rev. intros [A A'] [B B']. pose proof (ls'_disj _ _ _ A' B'). lia. Qed.
Lemma prec_rev u v i j : in_layer (rev ls') i u -> in_layer (rev ls') j v -> (prec ls v u <-> j < i).
Proof.
  rewrite !in_layer_rev. intros [A A'] [B B']. unfold ls' in A', B'. apply in_layer_skipn in A', B'. fold ls' in A', B'. split.
  - intros (x & y & X & Y & L). pose proof (ord_disj _ _ Ho _ _ _ A' Y). pose proof (ord_disj _ _ Ho _ _ _ B' X). lia.
  - intros L. exists (shift og + (length ls' - S j)), (shift og + (length ls' - S i)). repeat split; auto. lia.
Qed.
Lemma measured_rev n : In n (g_nodes (og_graph og)) /\ ~ In n (og_out og) <-> exists i, in_layer (rev ls') i n.
Proof.
  rewrite <- (meas_iff og Hog), (ord_measured og ls Hog Ho). fold ls'. split.
  - intros (j & Hj). exists (length ls' - S j). apply in_layer_rev. pose proof (in_layer_lt _ _ _ Hj). split; [lia|].
    replace (length ls' - S (length ls' - S j)) with j by lia. auto.
  - intros (i & Hi). apply in_layer_rev in Hi. destruct Hi; eauto.
Qed.
Lemma monotone_compat order : NoDup order -> (forall n, In n order <-> In n (g_nodes (og_graph og)) /\ ~ In n (og_out og)) ->
  monotone (in_layer (rev ls')) 0 order <-> order_compat og ls order.
Proof.
  intros ND HM. rewrite monotone_pairs by apply rev_disj. unfold order_compat. split.
  - intros [M1 M2]. split; auto. split; auto. intros a u b v c E P.
    destruct (M1 u) as (i & _ & Hi); [rewrite E; apply in_or_app; right; left; auto|].
    destruct (M1 v) as (j & _ & Hj); [rewrite E; apply in_or_app; right; right; apply in_or_app; right; left; auto|].
    apply (prec_rev u v i j) in P; auto. pose proof (M2 a u b v c i j E Hi Hj). lia.
  - intros (_ & _ & M). split.
    + intros n Hn. apply HM, measured_rev in Hn. destruct Hn as (i & Hi). exists i. split; auto. lia.
    + intros a u b v c i j E Hu Hv. specialize (M a u b v c E). rewrite (prec_rev u v i j) in M by auto. lia.
Qed.
(** is_compatible decides compatibility (IndexError if no node is measured) *)
Lemma is_compatible_spec xz order : xz_og xz = og -> xz_layers xz = ls ->
  match is_compatible xz order with
  | Ok b => b = true <-> order_compat og ls order
  | Err e => e = EIndex /\ order = [] /\ forall n, In n (g_nodes (og_graph og)) -> In n (og_out og)
  end.
Proof.
  intros E1 E2. unfold is_compatible. rewrite E1, E2.
  assert (S : seqb (of_list order) (non_outputs og) = true <-> forall n, In n order <-> In n (g_nodes (og_graph og)) /\ ~ In n (og_out og)).
  { rewrite seqb_spec. split; intros H n; specialize (H n).
    - rewrite <- mem_of_list, H. apply mem_non_outputs.
    - apply eq_true_iff_eq. rewrite mem_of_list, mem_non_outputs. auto. }
  destruct (seqb (of_list order) (non_outputs og)) eqn:Q; cbn [negb].
  2:{ split; [discriminate|]. intros (_ & K & _). apply S in K. discriminate. }
  pose proof (proj1 S eq_refl) as HM.
  assert (EQ : non_outputs og = of_list order) by (apply nset_ext; intros n; symmetry; revert n; apply seqb_spec; auto).
  destruct (length order =? length (elems (non_outputs og)))%nat eqn:L; cbn [negb].
  2:{ split; [discriminate|]. intros (K & _). apply Nat.eqb_neq in L. exfalso. apply L. rewrite EQ. symmetry. apply len_set; auto. }
  assert (ND : NoDup order) by (apply len_set; rewrite <- EQ; symmetry; apply Nat.eqb_eq; auto).
  assert (EL : measured_layers og ls = rev ls') by (unfold measured_layers, ls', shift; destruct (og_out og); reflexivity).
  rewrite EL. destruct (rev ls') as [|l r] eqn:R.
  - split; auto. assert (K : forall n, ~ (In n (g_nodes (og_graph og)) /\ ~ In n (og_out og))).
    { intros n Hn. apply measured_rev in Hn. rewrite R in Hn. destruct Hn as (i & x & Hi & _). destruct i; discriminate. }
    split; [|intros n Hn; destruct (in_dec Nat.eq_dec n (og_out og)); auto; exfalso; apply (K n); auto].
    destruct order as [|x o]; auto. exfalso. apply (K x), HM. left; auto.
  - rewrite <- R. rewrite <- (monotone_compat order ND HM). rewrite <- (compat_spec (rev ls') order 0 rev_disj). cbn [skipn]. tauto.
Qed.
(** the generated order is compatible *)
Lemma flat_mono_gen it rs pre : iter_ok it -> monotone (in_layer (pre ++ rs)) (length pre) (flat_map it rs).
Proof.
  intros Hit. revert pre. induction rs as [|l rs IH]; intros pre; cbn [flat_map monotone]; auto.
  assert (A : forall xs, (forall x, In x xs -> mem x l = true) -> forall r, (forall lo, lo = length pre -> monotone (in_layer (pre ++ l :: rs)) lo r) -> monotone (in_layer (pre ++ l :: rs)) (length pre) (xs ++ r)).
  { induction xs as [|x xs IHx]; intros Hx r Hr; cbn [app monotone]; [apply Hr; auto|].
    exists (length pre). split; auto. split; [|apply IHx; auto; intros; apply Hx; right; auto].
    exists l. split; [rewrite nth_error_app2, Nat.sub_diag by lia; reflexivity|apply Hx; left; auto]. }
  apply A; [intros x Hx; apply iter_In in Hx; auto|]. intros lo ->. specialize (IH (pre ++ [l])). rewrite <- app_assoc in IH. cbn [app] in IH.
  rewrite app_length in IH. cbn [length] in IH. revert IH. generalize (flat_map it rs). intros [|x o]; cbn [monotone]; auto. intros (i & Hi & K). exists i. split; [lia|auto].
Qed.
Lemma flat_map_NoDup it rs : iter_ok it -> (forall i j n, in_layer rs i n -> in_layer rs j n -> i = j) -> NoDup (flat_map it rs).
Proof.
  intros Hit. induction rs as [|l rs IH]; intros D; cbn [flat_map]; [constructor|].
  assert (NDA : forall a b : list nat, NoDup a -> NoDup b -> (forall x, In x a -> ~ In x b) -> NoDup (a ++ b)).
  { induction a as [|x a IHa]; intros b Na Nb H; auto. inversion Na; subst. cbn. constructor; [|apply IHa; auto; intros; apply H; right; auto].
    rewrite in_app_iff. intros [K|K]; auto. apply (H x); auto. left; auto. }
  apply NDA; [apply iter_NoDup; auto|apply IH; intros i j n A B; assert (S i = S j) by (apply (D _ _ n); auto); lia|].
  intros x Hx K. apply iter_In in Hx; auto. apply in_flat_map in K. destruct K as (l2 & K1 & K2). apply iter_In in K2; auto.
  apply In_nth_error in K1. destruct K1 as (i & K1). assert (0 = S i) by (apply (D _ _ x); [exists l; auto|exists l2; auto]). lia.
Qed.
Lemma total_order_ok it xz : iter_ok it -> xz_og xz = og -> xz_layers xz = ls ->
  exists o, total_order it xz = Ok o /\ order_compat og ls o.
Proof.
  intros Hit E1 E2. unfold total_order. rewrite E1, E2.
  assert (EL : measured_layers og ls = rev ls') by (unfold measured_layers, ls', shift; destruct (og_out og); reflexivity). rewrite EL.
  set (o := flat_map it (rev ls')).
  assert (HM : forall n, In n o <-> In n (g_nodes (og_graph og)) /\ ~ In n (og_out og)).
  { intros n. rewrite measured_rev. unfold o. rewrite in_flat_map. split.
    - intros (l & A & B). apply iter_In in B; auto. apply In_nth_error in A. destruct A as (i & A). exists i, l. auto.
    - intros (i & l & A & B). exists l. split; [eapply nth_error_In; eauto|apply iter_In; auto]. }
  replace (seqb (of_list o) (non_outputs og)) with true.
  2:{ symmetry. apply seqb_spec. intros n. apply eq_true_iff_eq. rewrite mem_of_list, mem_non_outputs. apply HM. }
  exists o. split; auto. apply monotone_compat; auto.
  - apply flat_map_NoDup; auto. apply rev_disj.
  - apply (flat_mono_gen it (rev ls') []); auto.
Qed.
End Xz.

(** * Pattern generation *)
(** corrections only target nodes that come later *)
Definition xz_respects (xz : xzcorr) : Prop := forall u v, In u (dkeys (og_meas (xz_og xz))) ->
  mem v (dgets (xz_x xz) u) = true \/ mem v (dgets (xz_z xz) u) = true -> prec (xz_layers xz) u v.
Definition measf (og : opengraph) (u : nat) : measurement := match dget (og_meas og) u with Some m => m | None => MPauli AZ Plus end.
Definition xz_cmds (it : iter) (xz : xzcorr) (order : list nat) : list cmd :=
  map (fun n => CN n SPlus) (it (sdiff (og_nodes (xz_og xz)) (of_list (og_in (xz_og xz)))))
  ++ map (fun e => CE (fst e) (snd e)) (g_edges (og_graph (xz_og xz)))
  ++ flow_seq (measf (xz_og xz)) (fun u => it (dgets (xz_x xz) u)) (fun u => it (dgets (xz_z xz) u)) order
  ++ map (fun p => CC (fst p) (snd p)) (og_cliff (xz_og xz)).
Lemma runnable_app_iff inp l1 l2 : runnable inp (l1 ++ l2) <-> runnable inp l1 /\ forall pre c post, l2 = pre ++ c :: post -> cmd_ok inp (l1 ++ pre) c.
Proof.
  split.
  - intros H. split; [eapply runnable_app_l; eauto|]. intros pre c post ->. apply (H (l1 ++ pre) c post). rewrite <- app_assoc; auto.
  - intros [H1 H2]. induction l2 as [|c l2 IH] using rev_ind; [rewrite app_nil_r; auto|]. rewrite app_assoc. apply runnable_snoc. split.
    + apply IH. intros pre c' post ->. apply (H2 pre c' (post ++ [c])). rewrite <- app_assoc; auto.
    + apply (H2 l2 c []). auto.
Qed.
Lemma measured_in_map {A} (f : A -> cmd) l n : (forall a, match f a with CM _ _ _ _ => False | _ => True end) -> ~ measured_in (map f l) n.
Proof. intros H (m & s & t & K). apply in_map_iff in K. destruct K as (a & E & _). specialize (H a). rewrite E in H. auto. Qed.
Lemma measured_flow meas xc zc ms n : measured_in (flow_seq meas xc zc ms) n <-> In n ms.
Proof.
  unfold measured_in, flow_seq. split.
  - intros (m & s & t & K). apply in_flat_map in K. destruct K as (u & Hu & [E|K]); [injection E as <-; auto|].
    unfold corr_cmds in K. apply in_app_or in K. destruct K as [K|K]; apply in_map_iff in K; destruct K as (? & ? & _); discriminate.
  - intros H. exists (meas n), sempty, sempty. apply in_flat_map. exists n. split; auto. left; auto.
Qed.
Lemma prepared_flow meas xc zc ms n : ~ prepared_in (flow_seq meas xc zc ms) n.
Proof.
  intros (st & K). apply in_flat_map in K. destruct K as (u & Hu & [E|K]); [discriminate|].
  unfold corr_cmds in K. apply in_app_or in K. destruct K as [K|K]; apply in_map_iff in K; destruct K as (? & ? & _); discriminate.
Qed.
Lemma list_split_mid {A} (a b c d : list A) (x y : A) : a ++ b = c ++ y :: d -> (exists e, a = c ++ y :: e) \/ (exists e, c = a ++ e /\ b = e ++ y :: d).
Proof.
  revert c. induction a as [|h a IH]; intros c E; cbn [app] in E.
  - right. exists c. auto.
  - destruct c as [|k c]; cbn in E; injection E as -> E; [left; exists a; auto|].
    destruct (IH c E) as [(e & ->)|(e & -> & ->)]; [left; exists e; auto|right; exists e; auto].
Qed.
Lemma runnable_flow inp pre meas xc zc done ms :
  runnable inp pre -> NoDup ms -> ord_ok xc zc done ms -> (forall n, In n done -> measured_in pre n) ->
  (forall u, In u ms -> live inp pre u) ->
  (forall u v, In u ms -> In v (xc u) \/ In v (zc u) -> (In v inp \/ prepared_in pre v) /\ (measured_in pre v -> In v done)) ->
  runnable inp (pre ++ flow_seq meas xc zc ms).
Proof.
  revert pre done. induction ms as [|u ms IH]; intros pre done HR ND HO HD HL HT.
  - unfold flow_seq. cbn. rewrite app_nil_r; auto.
  - inversion ND; subst. destruct HO as [HT1 HO]. cbn [flow_seq flat_map].
    fold (flow_seq meas xc zc ms). rewrite app_assoc.
    assert (R1 : runnable inp (pre ++ CM u (meas u) sempty sempty :: corr_cmds xc zc u)).
    { change (CM u (meas u) sempty sempty :: corr_cmds xc zc u) with ([CM u (meas u) sempty sempty] ++ corr_cmds xc zc u). rewrite app_assoc.
      apply runnable_app_iff. split.
      - apply runnable_snoc. split; auto. split; [apply HL; left; auto|]. intros k. rewrite mem_empty. intros [|]; discriminate.
      - intros p c post E. assert (K : In c (corr_cmds xc zc u)) by (rewrite E; apply in_or_app; right; left; auto).
        assert (T : exists v, (In v (xc u) \/ In v (zc u)) /\ (c = CZ v (sing u) \/ c = CX v (sing u))).
        { unfold corr_cmds in K. apply in_app_or in K. destruct K as [K|K]; apply in_map_iff in K; destruct K as (v & <- & Hv); exists v; auto. }
        destruct T as (v & Hv & Hc). destruct (HT u v (or_introl eq_refl) Hv) as [A B].
        assert (NM : ~ measured_in p v).
        { intros (m & s & t & Q). assert (Q' : In (CM v m s t) (corr_cmds xc zc u)) by (rewrite E; apply in_or_app; auto).
          unfold corr_cmds in Q'. apply in_app_or in Q'. destruct Q' as [Q'|Q']; apply in_map_iff in Q'; destruct Q' as (? & ? & _); discriminate. }
        assert (LV : live inp ((pre ++ [CM u (meas u) sempty sempty]) ++ p) v).
        { split; [destruct A as [A|A]; auto; right; apply prepared_app; left; apply prepared_app; auto|].
          rewrite !measured_app, measured_one. intros [[Q|(m & s & t & Q)]|Q]; auto.
          - apply (HT1 v Hv). right. auto.
          - injection Q as <- _ _. apply (HT1 u Hv). left; auto. }
        assert (DM : forall k, mem k (sing u) = true -> measured_in ((pre ++ [CM u (meas u) sempty sempty]) ++ p) k).
        { intros k. rewrite mem_sing. intros Q. apply Nat.eqb_eq in Q. subst k. apply measured_app. left. apply measured_app. right. apply measured_one. eauto. }
        destruct Hc as [-> | ->]; split; auto. }
    assert (MC : forall v, measured_in (CM u (meas u) sempty sempty :: corr_cmds xc zc u) v <-> v = u).
    { intros v. pose proof (measured_flow meas xc zc [u] v) as M. unfold flow_seq in M. cbn [flat_map] in M. rewrite app_nil_r in M. rewrite M. cbn. split; [intros [|[]]; auto|auto]. }
    assert (PC : forall v, ~ prepared_in (CM u (meas u) sempty sempty :: corr_cmds xc zc u) v).
    { intros v. pose proof (prepared_flow meas xc zc [u] v) as M. unfold flow_seq in M. cbn [flat_map] in M. rewrite app_nil_r in M. auto. }
    apply (IH _ (u :: done)); auto.
    + intros n [<-|Hn]; apply measured_app; [right; apply MC; auto|left; auto].
    + intros w Hw. destruct (HL w (or_intror Hw)) as [A B]. split; [rewrite prepared_app; tauto|]. rewrite measured_app, MC. intros [|K]; auto. subst; auto.
    + intros w v Hw Hv. destruct (HT w v (or_intror Hw) Hv) as [A B]. rewrite prepared_app, measured_app, MC. split; [tauto|]. intros [K| ->]; [right; auto|left; auto].
Qed.
Section Gen.
Context (it : iter) (Hit : iter_ok it) (xz : xzcorr).
Notation og := (xz_og xz).
Notation ls := (xz_layers xz).
Context (Hog : og_ok og) (Ho : order_ok og ls) (HR : xz_respects xz).
Notation NN := (it (sdiff (og_nodes og) (of_list (og_in og)))).
Notation xc := (fun u => it (dgets (xz_x xz) u)).
Notation zc := (fun u => it (dgets (xz_z xz) u)).
Lemma prec_irrefl u : ~ prec ls u u.
Proof. intros (i & j & A & B & L). pose proof (ord_disj _ _ Ho _ _ _ A B). lia. Qed.
Lemma In_NN n : In n NN <-> In n (g_nodes (og_graph og)) /\ ~ In n (og_in og).
Proof. rewrite iter_In by auto. unfold og_nodes. rewrite mem_sdiff, andb_true_iff, negb_true_iff, <- not_true_iff_false, !mem_of_list. tauto. Qed.
Lemma targets u v : In u (dkeys (og_meas og)) -> In v (xc u) \/ In v (zc u) -> prec ls u v.
Proof. intros Hu. cbv beta. rewrite !iter_In by auto. apply HR; auto. Qed.
Lemma compat_ord order : order_compat og ls order -> ord_ok xc zc [] order.
Proof.
  intros (ND & HM & HP).
  assert (G : forall b a, order = a ++ b -> ord_ok xc zc (rev a) b).
  { induction b as [|u b IH]; intros a E; cbn [ord_ok]; auto. split.
    - intros v Hv K. assert (Hu : In u (dkeys (og_meas og))) by (apply (meas_iff og Hog), HM; rewrite E; apply in_or_app; right; left; auto).
      apply targets in Hv; auto. destruct K as [<-|K]; [exact (prec_irrefl _ Hv)|]. apply in_rev in K. apply in_split in K. destruct K as (a1 & a2 & ->).
      apply (HP a1 v a2 u b); auto. rewrite E, <- app_assoc. reflexivity.
    - specialize (IH (a ++ [u])). rewrite rev_app_distr in IH. apply IH. rewrite <- app_assoc; auto. }
  apply (G order []). auto.
Qed.
Lemma prec_node u v : prec ls u v -> In v (g_nodes (og_graph og)).
Proof. intros (i & j & _ & B & _). apply (ord_cover _ _ Ho). eauto. Qed.
Lemma xz_runnable order : order_compat og ls order -> runnable (og_in og) (xz_cmds it xz order) /\
  forall n, live (og_in og) (xz_cmds it xz order) n <-> In n (og_out og).
Proof.
  intros HC. pose proof (compat_ord order HC) as HO. destruct HC as (ND & HM & HP). unfold xz_cmds.
  set (A := map (fun n => CN n SPlus) NN). set (B := map (fun e => CE (fst e) (snd e)) (g_edges (og_graph og))).
  set (F := flow_seq _ _ _ _). set (G := map _ (og_cliff og)).
  assert (PA : forall n, prepared_in A n <-> In n NN).
  { intros n. unfold A, prepared_in. split; [intros (st & H); apply in_map_iff in H; destruct H as (k & [= <- <-] & H); auto|]. intros H. exists SPlus. apply in_map_iff. eauto. }
  assert (PB : forall n, ~ prepared_in B n) by (intros n (st & H); apply in_map_iff in H; destruct H as (? & ? & _); discriminate).
  assert (PG : forall n, ~ prepared_in G n) by (intros n (st & H); apply in_map_iff in H; destruct H as (? & ? & _); discriminate).
  assert (MA : forall n, ~ measured_in A n) by (intros n; apply measured_in_map; auto).
  assert (MB : forall n, ~ measured_in B n) by (intros n; apply measured_in_map; auto).
  assert (MG : forall n, ~ measured_in G n) by (intros n; apply measured_in_map; auto).
  assert (EX : forall n, In n (g_nodes (og_graph og)) <-> In n (og_in og) \/ prepared_in A n).
  { intros n. rewrite PA, In_NN. destruct (in_dec Nat.eq_dec n (og_in og)); [|tauto]. split; auto. intros _. apply (proj2 (ok_in _ Hog)); auto. }
  assert (RA : runnable (og_in og) A).
  { intros pre c post E. assert (N0 : NoDup NN) by (apply iter_NoDup; auto). unfold A in E.
    apply map_eq_app in E. destruct E as (l1 & l2 & E1 & <- & E2). apply map_eq_cons in E2. destruct E2 as (x & t & -> & <- & <-). cbn [cmd_ok].
    split.
    - assert (In x NN) by (rewrite E1; apply in_or_app; right; left; auto). apply In_NN in H. tauto.
    - intros (st & K). apply in_map_iff in K. destruct K as (k & [= <- <-] & K). rewrite E1 in N0. apply NoDup_remove_2 in N0. apply N0. apply in_or_app; auto. }
  assert (RB : runnable (og_in og) (A ++ B)).
  { apply runnable_app_iff. split; auto. intros pre c post E. unfold B in E. apply map_eq_app in E. destruct E as (l1 & l2 & E1 & <- & E2).
    apply map_eq_cons in E2. destruct E2 as (x & t & -> & <- & <-). cbn [cmd_ok].
    destruct (ok_graph _ Hog) as (_ & _ & K). destruct (K x) as [K1 K2]; [rewrite E1; apply in_or_app; right; left; auto|].
    assert (L : forall n, In n (g_nodes (og_graph og)) -> live (og_in og) (A ++ map (fun e => CE (fst e) (snd e)) l1) n).
    { intros n Hn. apply EX in Hn. split; [rewrite prepared_app; tauto|]. rewrite measured_app. intros [Q|Q]; [apply (MA _ Q)|]. revert Q. apply measured_in_map; auto. }
    split; apply L; auto. }
  assert (RF : runnable (og_in og) ((A ++ B) ++ F)).
  { apply (runnable_flow _ _ _ _ _ []); auto.
    - intros n [].
    - intros u Hu. apply HM in Hu. destruct Hu as [Hu _]. apply EX in Hu. split; [rewrite prepared_app; tauto|]. rewrite measured_app. intros [Q|Q]; [apply (MA _ Q)|apply (MB _ Q)].
    - intros u v Hu Hv. assert (Hu' : In u (dkeys (og_meas og))) by (apply (meas_iff og Hog), HM; auto). apply targets in Hv; auto. apply prec_node, EX in Hv.
      split; [rewrite prepared_app; tauto|]. rewrite measured_app. intros [Q|Q]; [destruct (MA _ Q)|destruct (MB _ Q)]. }
  assert (RG : runnable (og_in og) (((A ++ B) ++ F) ++ G)).
  { apply runnable_app_iff. split; auto. intros pre c post E. unfold G in E. apply map_eq_app in E. destruct E as (l1 & l2 & E1 & <- & E2).
    apply map_eq_cons in E2. destruct E2 as (x & t & -> & <- & <-). cbn [cmd_ok].
    assert (Hx : In (fst x) (og_out og)) by (apply (proj2 (ok_cliff _ Hog)), in_map; rewrite E1; apply in_or_app; right; left; auto).
    assert (Nx : In (fst x) (g_nodes (og_graph og))) by (apply (proj2 (ok_out _ Hog)); auto). apply EX in Nx.
    split; [rewrite !prepared_app; tauto|]. rewrite !measured_app. intros [[[Q|Q]|Q]|Q]; [apply (MA _ Q)|apply (MB _ Q)| |revert Q; apply measured_in_map; auto].
    unfold F in Q. apply measured_flow in Q. apply HM in Q. tauto. }
  rewrite !app_assoc. split; auto. intros n. unfold live. rewrite !prepared_app, !measured_app.
  assert (PF : ~ prepared_in F n) by apply prepared_flow.
  assert (MF : measured_in F n <-> In n order) by apply measured_flow. rewrite MF, HM.
  specialize (MA n); specialize (MB n); specialize (MG n); specialize (PB n); specialize (PG n); specialize (EX n). pose proof (proj2 (ok_out _ Hog) n).
  destruct (in_dec Nat.eq_dec n (og_out og)); tauto.
Qed.
Lemma rmap_node_cmds order : (forall n, In n order -> In n (dkeys (og_meas og))) ->
  rmap (node_cmds it xz) order = Ok (map (fun u => CM u (measf og u) sempty sempty :: corr_cmds xc zc u) order).
Proof.
  induction order as [|u o IH]; intros H; auto. cbn [rmap map]. unfold node_cmds at 1.
  destruct (dget_keys _ u (H u (or_introl eq_refl))) as (m & Hm). rewrite Hm. cbn [of_opt rbind]. rewrite IH by (intros; apply H; right; auto). cbn [rbind].
  unfold measf at 2. rewrite Hm. reflexivity.
Qed.
Definition resolves (order : option (list nat)) (o : list nat) : Prop :=
  match order with None => total_order it xz = Ok o | Some o' => o' = o end.
(** generating a pattern from a compatible order succeeds *)
Lemma xz_pattern_ok order o : resolves order o -> order_compat og ls o -> (order = None \/ dkeys (og_meas og) <> []) ->
  exists p, xz_to_pattern it xz order = Ok p /\ p_in p = og_in og /\ p_out p = og_out og /\ p_seq p = xz_cmds it xz o /\
    runnable (p_in p) (p_seq p).
Proof.
  intros HO HC HN. destruct (xz_runnable o HC) as [R L]. unfold xz_to_pattern.
  assert (E1 : match order with None => total_order it xz | Some o => do b <- is_compatible xz o; if b then Ok o else Err EXZ end = Ok o).
  { destruct order as [o'|]; [|auto]. cbn in HO. subst o'. pose proof (is_compatible_spec og ls Hog Ho xz o eq_refl eq_refl) as K.
    destruct (is_compatible xz o) as [b|e].
    - cbn [rbind]. destruct K as [_ K]. rewrite K by auto. reflexivity.
    - destruct K as (_ & _ & K). destruct HN as [|HN]; [discriminate|]. destruct (dkeys (og_meas og)) as [|x k] eqn:E; [congruence|].
      assert (X : In x (dkeys (og_meas og))) by (rewrite E; left; auto). apply (meas_iff og Hog) in X. destruct X as [X1 X2]. exfalso. auto. }
  rewrite E1. cbn [rbind]. rewrite rmap_node_cmds by (intros n Hn; apply (meas_iff og Hog); apply HC; auto). cbn [rbind].
  rewrite <- flat_map_concat_map. fold (flow_seq (measf og) xc zc o). fold (xz_cmds it xz o).
  set (q := pat_extend (pat_new (og_in og)) (xz_cmds it xz o)).
  destruct (pat_extend_fields (pat_new (og_in og)) (xz_cmds it xz o)) as (F1 & F2 & F3). fold q in F1, F2, F3. cbn [pat_new p_in p_seq p_out app] in F1, F2, F3.
  unfold reorder_output_nodes. replace (assert_permutation (p_out q) (og_out og)) with (@Ok unit tt).
  2:{ symmetry. apply assert_permutation_spec. split; [apply (ok_out _ Hog)|]. intros n. rewrite F3. rewrite <- L. symmetry.
      apply (outs_of_live (og_in og) (xz_cmds it xz o)); auto. apply (ok_in _ Hog). }
  eexists. split; [reflexivity|]. cbn [p_in p_out p_seq]. rewrite F1, F2. auto.
Qed.
Lemma xz_pattern_inv order p : xz_to_pattern it xz order = Ok p ->
  exists o, order_compat og ls o /\ resolves order o /\ p_in p = og_in og /\ p_out p = og_out og /\ p_seq p = xz_cmds it xz o /\ runnable (p_in p) (p_seq p).
Proof.
  intros E. destruct order as [o|].
  - assert (K : is_compatible xz o = Ok true).
    { unfold xz_to_pattern in E. destruct (is_compatible xz o) as [[|]|]; auto; discriminate. }
    pose proof (is_compatible_spec og ls Hog Ho xz o eq_refl eq_refl) as S. rewrite K in S. exists o. assert (C : order_compat og ls o) by tauto. split; auto. split; [reflexivity|].
    destruct (dkeys (og_meas og)) as [|x k] eqn:Q.
    + exfalso. unfold is_compatible in K. destruct (seqb _ _); cbn [negb] in K; [|discriminate]. destruct (_ =? _)%nat; cbn [negb] in K; [|discriminate].
      destruct (measured_layers og ls) as [|l r] eqn:ML; [discriminate|].
      assert (EL : measured_layers og ls = rev (skipn (shift og) ls)) by (unfold measured_layers, shift; destruct (og_out og); reflexivity).
      rewrite EL in ML. assert (NL : nth_error (rev (skipn (shift og) ls)) 0 = Some l) by (rewrite ML; auto).
      assert (Z : 0 < length (skipn (shift og) ls)) by (rewrite <- rev_length, ML; cbn; lia).
      rewrite nth_error_rev in NL by auto. assert (NL' : nth_error ls (shift og + (length (skipn (shift og) ls) - 1)) = Some l).
      { rewrite <- NL. generalize (length (skipn (shift og) ls) - 1). generalize ls. generalize (shift og). clear. intros n. induction n as [|n IH]; intros l0 m; auto. destruct l0; cbn; [destruct m; auto|apply IH]. }
      destruct (ord_ne _ _ Ho _ _ NL') as (n & Hn). assert (X : In n (dkeys (og_meas og))).
      { apply (ord_measured og ls Hog Ho). exists (length (skipn (shift og) ls) - 1), l. auto. }
      rewrite Q in X. destruct X.
    + destruct (xz_pattern_ok (Some o) o eq_refl C) as (p' & E' & H); [right; congruence|]. rewrite E' in E. injection E as <-. tauto.
  - destruct (total_order_ok og ls Hog Ho it xz Hit eq_refl eq_refl) as (o & T & C). exists o. split; auto. split; auto.
    destruct (xz_pattern_ok None o T C) as (p' & E' & H); auto. rewrite E' in E. injection E as <-. tauto.
Qed.
End Gen.

(** * Corrections of a flow *)
(** x- and z-corrections are the part of g(u) and Odd(g(u)) that comes after u *)
Definition flow_corr (og : opengraph) (cf : dict nset) (ls : list nset) (xz : xzcorr) : Prop :=
  xz_og xz = og /\ xz_layers xz = ls /\ forall u s, dget cf u = Some s -> forall v,
  (mem v (dgets (xz_x xz) u) = true <-> mem v s = true /\ prec ls u v) /\
  (mem v (dgets (xz_z xz) u) = true <-> odd_nb (og_graph og) s v /\ prec ls u v).
Lemma dgets_ne d k s u : dgets (dset_ne d k s) u = if (k =? u)%nat then (if is_empty s then dgets d u else s) else dgets d u.
Proof.
  unfold dset_ne. destruct (is_empty s) eqn:E; [destruct (k =? u)%nat; auto|]. unfold dgets. rewrite dget_dset. destruct (k =? u)%nat; auto.
Qed.
Lemma dgets_ne' d k s u : dgets d k = sempty -> dgets (dset_ne d k s) u = if (k =? u)%nat then s else dgets d u.
Proof.
  intros H. rewrite dgets_ne. destruct (Nat.eqb_spec k u) as [<-|]; auto. destruct (is_empty s) eqn:E; auto. apply is_empty_spec in E. congruence.
Qed.
Lemma gf_corr_gen cf (fx fz : nat -> nset -> nset) (step : dict nset * dict nset -> nat * nset -> res (dict nset * dict nset)) st :
  (forall st p, In p cf -> step st p = Ok (dset_ne (fst st) (fst p) (fx (fst p) (snd p)), dset_ne (snd st) (fst p) (fz (fst p) (snd p)))) ->
  NoDup (dkeys cf) -> (forall k, In k (dkeys cf) -> dgets (fst st) k = sempty /\ dgets (snd st) k = sempty) ->
  exists r, rfold step cf st = Ok r /\ (forall u s, dget cf u = Some s -> dgets (fst r) u = fx u s /\ dgets (snd r) u = fz u s) /\
    (forall u, ~ In u (dkeys cf) -> dgets (fst r) u = dgets (fst st) u /\ dgets (snd r) u = dgets (snd st) u).
Proof.
  revert st. induction cf as [|[k s] cf IH]; intros st HS ND HE; cbn [rfold].
  - exists st. split; auto. split; auto. intros u s; discriminate.
  - cbn in ND. inversion ND; subst. rewrite HS by (left; auto). cbn [rbind fst snd].
    destruct (HE k (or_introl eq_refl)) as [E1 E2].
    set (st1 := (dset_ne (fst st) k (fx k s), dset_ne (snd st) k (fz k s))).
    destruct (IH st1) as (r & R & A & B); auto; [intros; apply HS; right; auto|..].
    { intros q Hq. unfold st1; cbn [fst snd]. rewrite !dgets_ne' by auto. replace (k =? q)%nat with false; [apply HE; right; auto|]. symmetry. apply Nat.eqb_neq. intros ->; auto. }
    exists r. split; auto. split.
    + intros u s' Hu. cbn [dget] in Hu. destruct (Nat.eqb_spec k u) as [<-|]; auto. injection Hu as <-.
      destruct (B k) as [-> ->]; auto. unfold st1; cbn [fst snd]. rewrite !dgets_ne' by auto. rewrite Nat.eqb_refl. auto.
    + intros u Hu. destruct (B u) as [-> ->]; [intros K; apply Hu; right; auto|]. unfold st1; cbn [fst snd]. rewrite !dgets_ne' by auto.
      replace (k =? u)%nat with false; auto. symmetry. apply Nat.eqb_neq. intros ->; apply Hu; left; auto.
Qed.
Section ToXz.
Context (it : iter) (Hit : iter_ok it) (f : pflow) (Hog : og_ok (pf_og f)) (ND : NoDup (dkeys (pf_cf f))).
Notation og := (pf_og f).
Notation cf := (pf_cf f).
Notation ls := (pf_layers f).
Notation odd := (odd_nb (og_graph og)).
Definition oddset (s : nset) : nset := match og_odd og s with Ok r => r | Err _ => sempty end.
Definition nbset (s : nset) : nset := match og_neighbors og s with Ok r => r | Err _ => sempty end.
Lemma oddset_spec (HC : corrf_ok og cf) u s : dget cf u = Some s -> og_odd og s = Ok (oddset s) /\ forall v, mem v (oddset s) = true <-> odd s v.
Proof.
  intros E. destruct (og_odd_nb og s) as (r & R & K); [intros k Hk; apply (cf_img _ _ HC u s k E Hk)|]. unfold oddset. rewrite R. auto.
Qed.
Lemma nbset_spec (HC : corrf_ok og cf) u s : dget cf u = Some s -> og_neighbors og s = Ok (nbset s) /\
  forall v, mem v (nbset s) = true <-> exists w, mem w s = true /\ adjacent (og_graph og) w v.
Proof.
  intros E. destruct (og_neighbors_spec og s) as (r & R & K); [intros k Hk; apply (cf_img _ _ HC u s k E Hk)|]. unfold nbset. rewrite R. auto.
Qed.
Lemma mem_sremove_iff v n s : mem v (sremove n s) = true <-> mem v s = true /\ v <> n.
Proof. rewrite mem_sremove, andb_true_iff, negb_true_iff, Nat.eqb_neq. tauto. Qed.
Lemma gf_to_xz_corr : gflow og cf ls -> exists xz, gf_to_xz f = Ok xz /\ flow_corr og cf ls xz.
Proof.
  intros [Ho HC G1 G2 _ _ _]. unfold gf_to_xz.
  destruct (gf_corr_gen cf (fun u s => sremove u s) (fun u s => sremove u (oddset s))
    (fun st p => do odd <- og_odd og (snd p); Ok (dset_ne (fst st) (fst p) (sremove (fst p) (snd p)), dset_ne (snd st) (fst p) (sremove (fst p) odd))) ([], []))
    as (r & R & A & _); auto.
  - intros st [u s] Hp. cbn [fst snd]. apply In_dget in Hp; auto. destruct (oddset_spec HC u s Hp) as [-> _]. reflexivity.
  - rewrite R. cbn [rbind]. eexists. split; [reflexivity|]. split; [|split]; auto. intros u s Hu v. cbn [xz_x xz_z]. destruct (A u s Hu) as [-> ->].
    rewrite !mem_sremove_iff. destruct (oddset_spec HC u s Hu) as [_ K]. rewrite K. pose proof (prec_irrefl (XZ og [] [] ls) Ho u) as I. cbn in I.
    split; split; intros [P Q]; split; auto; try (intros ->; auto); [apply (G1 u s)|apply (G2 u s)]; auto.
Qed.
Lemma odd_sing j s v : (forall k, mem k s = true <-> k = j) -> odd s v <-> adjacent (og_graph og) j v.
Proof.
  intros H. rewrite odd_nb_spec.
  assert (E : elems s = [j]).
  { assert (P : Permutation (elems s) [j]).
    { apply NoDup_Permutation; [apply elems_NoDup|repeat constructor; auto|]. intros k. rewrite elems_spec, H. cbn. split; [auto|intros [|[]]; auto]. }
    apply Permutation_sym, Permutation_length_1_inv in P. auto. }
  rewrite E. cbn [xorsum fold_right]. rewrite xorb_false_r, mem_nbh. tauto.
Qed.
Lemma causal_gflow : causal_flow og cf ls -> gflow og cf ls.
Proof.
  intros [Ho HC XY AL].
  assert (LX : forall i l, labelled og i (LPlane PXY) -> labelled og i l -> l = LPlane PXY).
  { intros i l (m & A & B) (m' & A' & B'). rewrite A in A'. injection A' as <-. congruence. }
  constructor; auto.
  - intros i s j Hs Hj _. destruct (AL i s Hs) as (k & K1 & K2 & K3 & _). apply K1 in Hj. subst; auto.
  - intros i s j Hs Hj Hne. destruct (AL i s Hs) as (k & K1 & K2 & K3 & K4). apply (odd_sing k s j K1) in Hj. apply K4; auto.
  - intros i s Hs _. destruct (AL i s Hs) as (k & K1 & K2 & K3 & K4). split; [|apply (odd_sing k s i K1), adjacent_sym; auto].
    apply not_true_iff_false. intros K. apply K1 in K. subst k. destruct (prec_irrefl (XZ og [] [] ls) Ho i K3).
  - intros i s Hs K. pose proof (LX i _ (XY i s Hs) K). discriminate.
  - intros i s Hs K. pose proof (LX i _ (XY i s Hs) K). discriminate.
Qed.
Lemma gflow_pauli : planar og -> gflow og cf ls -> pauli_flow og cf ls.
Proof.
  intros HP [Ho HC G1 G2 G3 G4 G5].
  assert (PL : forall i a, ~ labelled og i (LAxis a)).
  { intros i a (m & A & B). destruct (HP i m A) as (x & p & ->). discriminate. }
  constructor; auto; try (intros i s Hs K; destruct (PL _ _ K)).
  - intros i s j l Hs Hj Hne _ _ _. eauto.
  - intros i s j l Hs Hj Hne _ _ _. eauto.
  - intros i s j _ _ _ K. destruct (PL _ _ K).
Qed.
Lemma cf_to_xz_corr : causal_flow og cf ls -> exists xz, cf_to_xz f = Ok xz /\ flow_corr og cf ls xz.
Proof.
  intros CF. pose proof (causal_gflow CF) as [_ _ G1 G2 _ _ _]. destruct CF as [Ho HC XY AL]. unfold cf_to_xz.
  destruct (gf_corr_gen cf (fun u s => s) (fun u s => sremove u (nbset s))
    (fun st p => do nb <- og_neighbors og (snd p); Ok (dset_ne (fst st) (fst p) (snd p), dset_ne (snd st) (fst p) (sremove (fst p) nb))) ([], []))
    as (r & R & A & _); auto.
  - intros st [u s] Hp. cbn [fst snd]. apply In_dget in Hp; auto. destruct (nbset_spec HC u s Hp) as [-> _]. reflexivity.
  - rewrite R. cbn [rbind]. eexists. split; [reflexivity|]. split; [|split]; auto. intros u s Hu v. cbn [xz_x xz_z]. destruct (A u s Hu) as [-> ->].
    destruct (nbset_spec HC u s Hu) as [_ K]. pose proof (prec_irrefl (XZ og [] [] ls) Ho u) as I. cbn in I.
    destruct (AL u s Hu) as (j & J1 & J2 & J3 & J4). split.
    + split; [|tauto]. intros P. split; auto. apply J1 in P. subst; auto.
    + rewrite mem_sremove_iff, K, (odd_sing j s v J1). split.
      * intros [(w & W1 & W2) Hne]. apply J1 in W1. subst w. split; auto.
      * intros [P Q]. split; [exists j; split; auto; apply J1; auto|]. intros ->; auto.
Qed.
(** Pauli flow: the layers are visited from the last measured to the first *)
Lemma pxz_layer_gen l future st : NoDup l -> (forall u, In u l -> dget cf u = None \/ exists s, dget cf u = Some s /\ og_odd og s = Ok (oddset s)) ->
  (forall u, In u l -> dgets (fst st) u = sempty /\ dgets (snd st) u = sempty) ->
  exists r, rfold (pxz_node f future) l st = Ok r /\
   (forall u, In u l -> dgets (fst r) u = sinter (dgets cf u) future /\ dgets (snd r) u = sinter (oddset (dgets cf u)) future) /\
   (forall u, ~ In u l -> dgets (fst r) u = dgets (fst st) u /\ dgets (snd r) u = dgets (snd st) u).
Proof.
  revert st. induction l as [|k l IH]; intros st NDl HS HE; cbn [rfold].
  - exists st. split; auto. split; auto. intros u [].
  - inversion NDl; subst.
    assert (EO : og_odd og (dgets cf k) = Ok (oddset (dgets cf k))).
    { unfold dgets. destruct (HS k (or_introl eq_refl)) as [-> |(s & -> & E)]; auto. }
    unfold pxz_node at 1. rewrite EO. cbn [rbind].
    destruct (HE k (or_introl eq_refl)) as [E1 E2].
    set (st1 := (dset_ne (fst st) k (sinter (dgets cf k) future), dset_ne (snd st) k (sinter (oddset (dgets cf k)) future))).
    destruct (IH st1) as (r & R & A & B); auto; [intros; apply HS; right; auto|..].
    { intros q Hq. unfold st1; cbn [fst snd]. rewrite !dgets_ne' by auto. replace (k =? q)%nat with false; [apply HE; right; auto|]. symmetry. apply Nat.eqb_neq. intros ->; auto. }
    exists r. split; auto. split.
    + intros u [<-|Hu]; auto. destruct (B k) as [-> ->]; auto. unfold st1; cbn [fst snd]. rewrite !dgets_ne' by auto. rewrite Nat.eqb_refl. auto.
    + intros u Hu. destruct (B u) as [-> ->]; [intros K; apply Hu; right; auto|]. unfold st1; cbn [fst snd]. rewrite !dgets_ne' by auto.
      replace (k =? u)%nat with false; auto. symmetry. apply Nat.eqb_neq. intros ->; apply Hu; left; auto.
Qed.
Lemma pxz_gen ms future st : (forall i j n, in_layer ms i n -> in_layer ms j n -> i = j) ->
  (forall i u, in_layer ms i u -> dget cf u = None \/ exists s, dget cf u = Some s /\ og_odd og s = Ok (oddset s)) ->
  (forall i u, in_layer ms i u -> dgets (fst st) u = sempty /\ dgets (snd st) u = sempty) ->
  exists r, rfold (pxz_layer it f) ms (st, future) = Ok r /\
   (forall i u, in_layer ms i u -> dgets (fst (fst r)) u = sinter (dgets cf u) (sunion future (unions (firstn i ms))) /\
       dgets (snd (fst r)) u = sinter (oddset (dgets cf u)) (sunion future (unions (firstn i ms)))) /\
   (forall u, (forall i, ~ in_layer ms i u) -> dgets (fst (fst r)) u = dgets (fst st) u /\ dgets (snd (fst r)) u = dgets (snd st) u).
Proof.
  revert st future. induction ms as [|l ms IH]; intros st future D HS HE; cbn [rfold].
  - eexists. split; [reflexivity|]. cbn [fst snd]. split; auto. intros i u (x & H & _). destruct i; discriminate.
  - unfold pxz_layer at 1. cbn [fst snd].
    destruct (pxz_layer_gen (it l) future st) as (r & R & A & B).
    { apply iter_NoDup; auto. }
    { intros u Hu. apply iter_In in Hu; auto. apply (HS 0). exists l; auto. }
    { intros u Hu. apply iter_In in Hu; auto. apply (HE 0). exists l; auto. }
    rewrite R. cbn [rbind].
    assert (SH : forall i n, in_layer ms i n -> in_layer (l :: ms) (S i) n) by (intros i n H; exact H).
    assert (NL : forall i n, in_layer ms i n -> mem n l = false).
    { intros i n H. apply not_true_iff_false. intros K. assert (0 = S i) by (apply (D _ _ n); [exists l; auto|auto]). lia. }
    destruct (IH r (sunion future l)) as (r' & R' & A' & B').
    { intros i j n X Y. assert (S i = S j) by (apply (D _ _ n); auto). lia. }
    { intros i u H. apply (HS (S i)); auto. }
    { intros i u H. destruct (B u) as [-> ->]; [rewrite iter_In by auto; rewrite (NL i u H); discriminate|]. apply (HE (S i)); auto. }
    exists r'. split; auto. split.
    + intros [|i] u H.
      * destruct H as (x & [= <-] & Hu). destruct (B' u) as [-> ->].
        { intros i K. rewrite (NL i u K) in Hu. discriminate. }
        cbn [firstn]. replace (sunion future (unions [])) with future by (symmetry; apply sunion_e). apply A. apply iter_In; auto.
      * destruct (A' i u) as [-> ->]; auto. cbn [firstn]. rewrite unions_cons, sunion_assoc. auto.
    + intros u Hu. destruct (B' u) as [-> ->]; [intros i K; apply (Hu (S i)); auto|]. apply B. rewrite iter_In by auto. intros K. apply (Hu 0). exists l; auto.
Qed.
Lemma mem_unions_firstn i n : i <= length ls -> mem n (unions (firstn i ls)) = true <-> exists j, j < i /\ in_layer ls j n.
Proof.
  intros L. rewrite mem_unions. unfold in_layer. split.
  - intros (j & l & H & K). assert (j < i) by (assert (j < length (firstn i ls)) by (apply nth_error_Some; congruence); rewrite firstn_length in H0; lia).
    exists j. split; auto. exists l. split; auto. rewrite <- H. revert H0. clear. revert i j. induction ls as [|x r IH]; intros i j H; [destruct i, j; auto|]. destruct i; [lia|]. destruct j; auto. cbn. apply IH. lia.
  - intros (j & Hj & l & H & K). exists j, l. split; auto. rewrite <- H. revert Hj. clear. revert i j. induction ls as [|x r IH]; intros i j H; [destruct i, j; auto|]. destruct i; [lia|]. destruct j; auto. cbn. apply IH. lia.
Qed.
Lemma pf_to_xz_corr : order_ok og ls -> corrf_ok og cf -> exists xz, pf_to_xz it f = Ok xz /\ flow_corr og cf ls xz.
Proof.
  intros Ho HC. unfold pf_to_xz.
  destruct (pxz_gen ls sempty ([], [])) as (r & R & A & _).
  { apply (ord_disj _ _ Ho). }
  { intros i u _. destruct (dget cf u) as [s|] eqn:E; auto. right. exists s. split; auto. apply (oddset_spec HC u s E). }
  { intros i u _. auto. }
  match goal with |- context [rfold ?F ?L ?S] => replace (rfold F L S) with (Ok r) by (symmetry; exact R) end. cbn [rbind]. eexists. split; [reflexivity|]. split; [|split]; auto. intros u s Hu v. cbn [xz_x xz_z].
  assert (Nu : In u (g_nodes (og_graph og))) by (apply (cf_dom _ _ HC); eauto).
  apply (ord_cover _ _ Ho) in Nu. destruct Nu as (i & Hi). destruct (A i u Hi) as [-> ->].
  assert (ES : dgets cf u = s) by (unfold dgets; rewrite Hu; auto). rewrite ES, sunion_0_l.
  assert (PI : mem v (unions (firstn i ls)) = true <-> prec ls u v).
  { rewrite mem_unions_firstn by (apply in_layer_lt in Hi; lia). split.
    - intros (j & L & K). exists i, j. auto.
    - intros (i' & j & X & Y & L). rewrite (ord_disj _ _ Ho _ _ _ Hi X). eauto. }
  rewrite !mem_sinter, !andb_true_iff, PI. destruct (oddset_spec HC u s Hu) as [_ K]. rewrite K. tauto.
Qed.
End ToXz.

(** * Determinism *)
(** all branches give the same map up to a global phase, on every state in
    which the prepared nodes do not exist yet *)
Definition deterministic (p : pattern) : Prop := forall o o', exists c, phase c /\ forall psi,
  (forall n, prepared_in (p_seq p) n -> indep n psi) ->
  den (seq_ops o (p_seq p)) psi = cscale c (den (seq_ops o' (p_seq p)) psi).
Section DetThm.
Context (it : iter) (Hit : iter_ok it) (og : opengraph) (Hog : og_ok og) (HS : simple (og_graph og)) (cf : dict nset) (ls : list nset).
Context (PF : pauli_flow og cf ls) (xz : xzcorr) (XC : flow_corr og cf ls xz).
Lemma corr_respects : xz_respects xz.
Proof.
  destruct XC as (E1 & E2 & K). intros u v Hu. rewrite E1 in Hu. apply (meas_iff og Hog) in Hu. apply (cf_dom _ _ (pfl_cf _ _ _ PF)) in Hu. destruct Hu as (s & Hs).
  destruct (K u s Hs v) as [K1 K2]. rewrite K1, K2, E2. tauto.
Qed.
Lemma seq_N l o : seq_ops o (map (fun n => CN n SPlus) l) = prep_ops (map (fun n => (n, SPlus)) l).
Proof. induction l as [|x l IH]; auto. cbn [map seq_ops flat_map cmd_ops app]. fold (seq_ops o (map (fun n => CN n SPlus) l)). rewrite IH. reflexivity. Qed.
Lemma seq_E es o : seq_ops o (map (fun e => CE (fst e) (snd e)) es) = cz_ops es.
Proof. induction es as [|x l IH]; auto. cbn [map seq_ops flat_map cmd_ops app]. fold (seq_ops o (map (fun e => CE (fst e) (snd e)) l)). rewrite IH. reflexivity. Qed.
Lemma seq_C (cl : dict clifford) o o' : seq_ops o (map (fun p => CC (fst p) (snd p)) cl) = seq_ops o' (map (fun p => CC (fst p) (snd p)) cl).
Proof. induction cl as [|x l IH]; auto. cbn [map seq_ops flat_map cmd_ops app]. f_equal. apply IH. Qed.
Lemma seq_C_ops (cl : dict clifford) o : seq_ops o (map (fun p => CC (fst p) (snd p)) cl) = map (fun p => OApp1 (clifford_mat (snd p)) (fst p)) cl.
Proof. induction cl as [|x l IH]; auto. cbn [map seq_ops flat_map cmd_ops app]. f_equal. apply IH. Qed.
Lemma label_of v m : dget (og_meas og) v = Some m -> labelled og v (mlabel m).
Proof. intros H. exists m. auto. Qed.
Lemma bool_iff_false (b : bool) (P : Prop) : (b = true <-> P) -> ~ P -> b = false.
Proof. intros H K. apply not_true_iff_false. tauto. Qed.
(** every branch is the map of the graph: prepare, entangle, project on the
    outcome 0, apply the Cliffords of the outputs *)
Lemma flow_pattern_map order : order_compat og ls order -> forall o,
  leq_on (fun psi => forall n, In n (it (sdiff (og_nodes og) (of_list (og_in og)))) -> indep n psi)
  (seq_ops o (xz_cmds it xz order))
  (prep_ops (map (fun n => (n, SPlus)) (it (sdiff (og_nodes og) (of_list (og_in og))))) ++ cz_ops (g_edges (og_graph og))
    ++ map (m0 (measf og)) order ++ map (fun p => OApp1 (clifford_mat (snd p)) (fst p)) (og_cliff og)).
Proof.
  intros OC. pose proof corr_respects as HR. destruct XC as (E1 & E2 & K).
  assert (Ho : order_ok og ls) by apply PF. assert (HC : corrf_ok og cf) by apply PF.
  assert (ORD : ord_ok (fun u => it (dgets (xz_x xz) u)) (fun u => it (dgets (xz_z xz) u)) [] order).
  { apply compat_ord; rewrite ?E1, ?E2; auto. }
  destruct OC as (NDo & HM & _).
  assert (HD : forall u, In u order -> exists s m, dget cf u = Some s /\ dget (og_meas og) u = Some m).
  { intros u Hu. apply HM in Hu. pose proof Hu as Hu'. apply (cf_dom _ _ HC) in Hu'. destruct Hu' as (s & Hs). apply (meas_iff og Hog), dget_keys in Hu. destruct Hu as (m & Hm). eauto. }
  set (p := fun u v => mem v (dgets cf u)).
  assert (Hp : forall u s, dget cf u = Some s -> forall v, p u v = mem v s) by (intros u s E v; unfold p, dgets; rewrite E; auto).
  assert (OD : forall u s, dget cf u = Some s -> forall v, oddp (g_edges (og_graph og)) (p u) v = true <-> odd_nb (og_graph og) s v).
  { intros u s E v. rewrite (oddp_ext _ _ (fun k => mem k s)) by (apply Hp; auto). apply oddp_odd_nb; auto. apply (ok_graph _ Hog). }
  assert (LX : forall u s, dget cf u = Some s -> forall v, lmem v (it (dgets (xz_x xz) u)) = true <-> mem v s = true /\ prec ls u v).
  { intros u s E v. rewrite lmem_In, iter_In by auto. apply (K u s E). }
  assert (LZ : forall u s, dget cf u = Some s -> forall v, lmem v (it (dgets (xz_z xz) u)) = true <-> odd_nb (og_graph og) s v /\ prec ls u v).
  { intros u s E v. rewrite lmem_In, iter_In by auto. apply (K u s E). }
  assert (D0 : forall o, leq_on (fun psi => forall n, In n (it (sdiff (og_nodes og) (of_list (og_in og)))) -> indep n psi)
    (prep_ops (map (fun n => (n, SPlus)) (it (sdiff (og_nodes og) (of_list (og_in og))))) ++ cz_ops (g_edges (og_graph og)) ++
       seq_ops o (flow_seq (measf og) (fun u => it (dgets (xz_x xz) u)) (fun u => it (dgets (xz_z xz) u)) order))
    (prep_ops (map (fun n => (n, SPlus)) (it (sdiff (og_nodes og) (of_list (og_in og))))) ++ cz_ops (g_edges (og_graph og)) ++ map (m0 (measf og)) order)).
  { intros o. apply flow_det0 with (L := g_nodes (og_graph og)) (p := p); auto.
    - apply (ok_graph _ Hog).
    - apply iter_NoDup; auto.
    - intros n Hn. apply iter_In in Hn; auto. rewrite mem_sdiff in Hn. apply andb_prop in Hn. destruct Hn as [Hn _]. unfold og_nodes in Hn. apply mem_of_list in Hn; auto.
    - intros e He. destruct (ok_graph _ Hog) as (_ & _ & G). destruct (G e He). repeat split; auto.
    - intros u Hu. apply HM in Hu. tauto.
    - intros u Hu. destruct (HD u Hu) as (s & m & Hs & Hm). split; [apply iter_NoDup; auto|]. split; [apply iter_NoDup; auto|].
      intros v [Hv|Hv]; apply lmem_In in Hv; [apply (LX u s Hs) in Hv|apply (LZ u s Hs) in Hv]; destruct Hv as [_ (i & j & _ & Hv & _)]; apply (ord_cover _ _ Ho); eauto.
    - intros u v Hu Hv. destruct (HD u Hu) as (s & m & Hs & Hm). rewrite (Hp u s Hs) in Hv. destruct (cf_img _ _ HC u s v Hs Hv).
      apply iter_In; auto. unfold og_nodes. rewrite mem_sdiff, andb_true_iff, negb_true_iff, <- not_true_iff_false, !mem_of_list. tauto.
    - intros u v Hu Hv Nv. destruct (HD u Hu) as (s & m & Hs & Hm).
      assert (Pv : prec ls u v).
      { assert (Ov : In v (og_out og)) by (destruct (in_dec Nat.eq_dec v (og_out og)); auto; exfalso; apply Nv, HM; auto).
        assert (V0 : in_layer ls 0 v) by (apply (ord_first _ _ Ho); auto; intros E; rewrite E in Ov; destruct Ov).
        apply HM in Hu. destruct Hu as [Hu Nu]. apply (ord_cover _ _ Ho) in Hu. destruct Hu as (i & Hi). exists i, 0. repeat split; auto.
        destruct i; [|lia]. exfalso. apply Nu. apply (ord_first _ _ Ho); auto. intros E; rewrite E in Ov; destruct Ov. }
      split; apply eq_true_iff_eq; [rewrite (Hp u s Hs), (LX u s Hs); tauto|rewrite (OD u s Hs), (LZ u s Hs); tauto].
    - intros u v Hu Hv Hne. destruct (HD u Hu) as (s & m & Hs & Hm). destruct (HD v Hv) as (sv & mv & Hsv & Hmv).
      unfold measf. rewrite Hmv. rewrite (Hp u s Hs). pose proof (label_of v mv Hmv) as LB.
      pose proof (OD u s Hs v) as O. pose proof (LX u s Hs v) as X. pose proof (LZ u s Hs v) as Z.
      assert (PD : prec ls u v \/ ~ prec ls u v).
      { apply HM in Hu, Hv. destruct Hu as [Hu _], Hv as [Hv _]. apply (ord_cover _ _ Ho) in Hu, Hv. destruct Hu as (i & Hi), Hv as (j & Hj).
        destruct (lt_dec j i) as [L|L]; [left; exists i, j; auto|right]. intros (i' & j' & A & B & L'). rewrite (ord_disj _ _ Ho _ _ _ Hi A), (ord_disj _ _ Ho _ _ _ Hj B) in L. lia. }
      destruct PD as [P|P].
      + replace (lmem v (it (dgets (xz_x xz) u))) with (mem v s) by (apply eq_true_iff_eq; tauto).
        replace (lmem v (it (dgets (xz_z xz) u))) with (oddp (g_edges (og_graph og)) (p u) v) by (apply eq_true_iff_eq; tauto).
        rewrite !xorb_nilpotent. apply inG_00.
      + rewrite (bool_iff_false _ _ X), (bool_iff_false _ _ Z), !xorb_false_r by tauto.
        pose proof (pfl_1 _ _ _ PF u s v (mlabel mv) Hs) as P1. pose proof (pfl_2 _ _ _ PF u s v (mlabel mv) Hs) as P2. pose proof (pfl_3 _ _ _ PF u s v Hs P) as P3.
        assert (Hne' : u <> v) by auto.
        destruct mv as [a pl|[] sg]; cbn [mlabel inG] in *.
        * replace (mem v s) with false; [replace (oddp _ _ _) with false; auto|]; symmetry; apply not_true_iff_false; intros Q; apply P; [apply P2|apply P1]; auto; try discriminate. tauto.
        * apply negb_true_iff, not_true_iff_false. intros Q. apply P, P2; auto; try discriminate. tauto.
        * apply eqb_true_iff. apply eq_true_iff_eq. rewrite O. apply P3; auto.
        * apply negb_true_iff, not_true_iff_false. intros Q. apply P, P1; auto; discriminate.
    - intros u Hu. destruct (HD u Hu) as (s & m & Hs & Hm). unfold measf. rewrite Hm. rewrite (Hp u s Hs). pose proof (label_of u m Hm) as LB. pose proof (OD u s Hs u) as O.
      destruct m as [a []|[] sg]; cbn [mlabel inG sigx sigz] in *.
      + destruct (pfl_4 _ _ _ PF u s Hs LB) as [-> Q]. apply O in Q. rewrite Q. reflexivity.
      + destruct (pfl_6 _ _ _ PF u s Hs LB) as [-> Q]. rewrite (bool_iff_false _ _ O Q). reflexivity.
      + destruct (pfl_5 _ _ _ PF u s Hs LB) as [-> Q]. apply O in Q. rewrite Q. reflexivity.
      + pose proof (pfl_7 _ _ _ PF u s Hs LB) as Q. apply O in Q. rewrite Q. reflexivity.
      + destruct (pfl_9 _ _ _ PF u s Hs LB) as [[-> Q]|[-> Q]]; [rewrite (bool_iff_false _ _ O Q)|apply O in Q; rewrite Q]; reflexivity.
      + rewrite (pfl_8 _ _ _ PF u s Hs LB). reflexivity. }
  intros o. unfold xz_cmds. rewrite E1. rewrite !seq_ops_app, !seq_N, !seq_E, seq_C_ops.
  rewrite !(app_assoc (cz_ops _)), !(app_assoc (prep_ops _)). apply leq_on_app; [|reflexivity].
  rewrite <- !app_assoc. apply D0.
Qed.
Lemma flow_pattern_det order : order_compat og ls order -> forall o,
  leq_on (fun psi => forall n, In n (it (sdiff (og_nodes og) (of_list (og_in og)))) -> indep n psi)
  (seq_ops o (xz_cmds it xz order)) (seq_ops (fun _ => false) (xz_cmds it xz order)).
Proof. intros OC o. eapply leq_on_trans; [apply flow_pattern_map; auto|]. apply leq_on_sym, flow_pattern_map; auto. Qed.
Lemma flow_det_pattern order p : xz_to_pattern it xz order = Ok p -> p_in p = og_in og /\ p_out p = og_out og /\ runnable (p_in p) (p_seq p) /\ deterministic p.
Proof.
  intros E. pose proof corr_respects as HR. pose proof XC as (E1 & E2 & K).
  assert (Ho : order_ok og ls) by apply PF.
  destruct (xz_pattern_inv it Hit xz) with (order := order) (p := p) as (ord & OC & _ & A & B & D & R); rewrite ?E1, ?E2; auto.
  rewrite E1 in *. rewrite E2 in *. split; auto. split; auto. split; auto.
  intros o o'. rewrite D. pose proof (flow_pattern_det ord OC o) as X. pose proof (flow_pattern_det ord OC o') as Y.
  destruct (leq_on_trans _ _ _ _ X (leq_on_sym _ _ _ Y)) as (c & Hc & H). exists c. split; auto. intros psi Hpsi. apply H. intros n Hn. apply Hpsi.
  exists SPlus. unfold xz_cmds. rewrite E1. apply in_or_app. left. apply in_map_iff. exists n. auto.
Qed.
Lemma flow_pattern_exists order o : resolves it xz order o -> order_compat og ls o -> (order = None \/ dkeys (og_meas og) <> []) -> exists p, xz_to_pattern it xz order = Ok p.
Proof.
  intros A B D. pose proof corr_respects as HR. pose proof XC as (E1 & E2 & K). assert (Ho : order_ok og ls) by apply PF.
  destruct (xz_pattern_ok it Hit xz) with (order := order) (o := o) as (p & E & _); rewrite ?E1, ?E2; auto. eauto.
Qed.
End DetThm.
