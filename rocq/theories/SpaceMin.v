(** Maximal space, optimality for a fixed measurement order, and measurement
    reordering (graphix/space_minimization.py, Pattern.parallelize_pattern). *)
From Coq Require Import Reals Arith ZArith NArith List Bool Lia Permutation Setoid Morphisms.
From Verif Require Import Cplx Mat2 Fundamentals CliffordDb Clifford NSet Measure QState Pattern Layer Standardize Space.
Import ListNotations.

Lemma exists_node_ns inp l n : exists_node inp l n <-> In n (inp ++ map fst (ns_of l)).
Proof. unfold exists_node. rewrite in_app_iff, ns_of_In. tauto. Qed.
Lemma count_N_ns l : count_N l = length (ns_of l).
Proof. unfold count_N. induction l as [|c l IH]; auto. destruct c; simpl; auto. Qed.
Lemma nodes_NoDup inp l : NoDup inp -> runnable inp l -> NoDup (inp ++ map fst (ns_of l)).
Proof. intros HI HR. destruct (runnable_NoDup inp l HR) as (A & _ & B & _). apply NoDup_app_iff || idtac. apply NoDup_app; auto. intros x H1 H2. apply (B x); auto. Qed.

Theorem space_opt_ok st nbs : std_wf st -> std_out_ok st -> NoDup (sp_in st) -> nbs_ok st nbs -> has_loop st = false ->
  exists p', space_opt st nbs = Ok p' /\ space_cmds st nbs = Ok (p_seq p') /\ p_in p' = sp_in st /\ p_out p' = sp_out st /\ pat_ok p' /\
    p_n p' = (length (sp_in st) + length (sp_n st))%nat /\ runnable (p_in p') (p_seq p') /\ ms_of (p_seq p') = map mc_node (sp_m st) /\
    (forall n, exists_node (sp_in st) (p_seq p') n <-> std_node st n) /\
    forall es o, edge_enum st es -> same_branch o (std_cmds st es) (p_seq p').
Proof.
  intros W [NO HO] NI NB HL. destruct (space_cmds_ok st nbs W (conj NO HO) NB HL) as (l & E & R & M & X & S).
  unfold space_opt. rewrite E. cbn [rbind]. unfold reorder_output_nodes.
  destruct (pat_extend_fields (pat_new (sp_in st)) l) as (F1 & F2 & F3). rewrite F1, F2, F3, pat_extend_n. simpl.
  destruct (outs_of_live _ _ NI R) as [ND LV].
  assert (EQ : forall n, In n (sp_out st) <-> In n (outs_of (sp_in st) l)).
  { intros n. rewrite LV, HO. change (live (sp_in st) l n) with (exists_node (sp_in st) l n /\ ~ measured_in l n). rewrite X, <- ms_of_In, M. tauto. }
  assert (AP : assert_permutation (outs_of (sp_in st) l) (sp_out st) = Ok tt) by (apply assert_permutation_spec; split; auto).
  rewrite AP. eexists. split; [reflexivity|]. simpl. split; [auto|]. split; [auto|]. split; [auto|]. split.
  { split; auto. unfold pat_wf; simpl. apply NoDup_Permutation; auto. }
  split; [|auto]. rewrite count_N_ns, <- (map_length fst (ns_of l)), <- (map_length fst (sp_n st)), <- !app_length.
  apply Permutation_length, NoDup_Permutation.
  - apply nodes_NoDup; auto.
  - apply NoDup_app; auto. apply (sw_nN _ W). intros x H1 H2. apply (sw_nin _ W x); auto.
  - intros x. rewrite <- exists_node_ns, X. unfold std_node. rewrite in_app_iff. tauto.
Qed.

(** * max_space() of the standardized pattern is that of the emitted pattern *)
Lemma pms_snoc i l c : pms i (l ++ [c]) = pms_step (pms i l) c.
Proof. unfold pms. rewrite fold_left_app. reflexivity. Qed.
Lemma sim_active st i c init n c' init' : ensure_active st (c, init) n = Ok (c', init') ->
  activate (init, pms i c) n = (init', pms i c') /\ mem n init' = true /\ forall k, mem k init = true -> mem k init' = true.
Proof.
  unfold ensure_active, activate. cbn [fst snd]. destruct (mem n init) eqn:E; [intros [= <- <-]; auto|].
  destruct (dget (rev (sp_n st)) n) as [s|]; cbn [rbind]; [|discriminate]. intros [= <- <-]. rewrite pms_snoc. cbn [pms_step].
  split; [reflexivity|]. split; [rewrite mem_sadd, Nat.eqb_refl; auto|]. intros k K. rewrite mem_sadd, K. apply orb_true_r.
Qed.
Lemma sim_nbs st i done n l : forall c init c' init', (forall k, mem k done = true -> mem k init = true) ->
  rfold (fun a k => if mem k done then Ok a else do a <- ensure_active st a k; Ok (fst a ++ [CE n k], snd a)) l (c, init) = Ok (c', init') ->
  fold_left activate l (init, pms i c) = (init', pms i c') /\ forall k, mem k init = true -> mem k init' = true.
Proof.
  induction l as [|k l IH]; intros c init c' init' HD E; cbn [rfold fold_left] in *; [injection E as <- <-; auto|].
  destruct (mem k done) eqn:Ek.
  - unfold activate at 2. cbn [fst]. rewrite (HD k Ek). apply IH; auto.
  - destruct (ensure_active st (c, init) k) as [[c1 i1]|] eqn:E1; [|discriminate]. cbn [rbind fst snd] in E.
    destruct (sim_active st i _ _ _ _ _ E1) as (A & _ & B). rewrite A.
    replace (pms i c1) with (pms i (c1 ++ [CE n k])) by (rewrite pms_snoc; reflexivity).
    destruct (IH _ _ _ _ (fun k H => B k (HD k H)) E) as [P Q]. auto.
Qed.
Lemma sim_nb st nbs i done n c init c' init' : (forall k, mem k done = true -> mem k init = true) ->
  ensure_nb st nbs done (c, init) n = Ok (c', init') ->
  activate_nb st nbs (init, pms i c) n = Ok (init', pms i c') /\ mem n init' = true /\ forall k, mem k init = true -> mem k init' = true.
Proof.
  intros HD. unfold ensure_nb, activate_nb. destruct (ensure_active st (c, init) n) as [[c1 i1]|] eqn:E1; [|discriminate]. cbn [rbind].
  destruct (sim_active st i _ _ _ _ _ E1) as (A & M & B). rewrite A. destruct (mem n (sp_nodes st)); [|discriminate]. cbn [negb].
  intros E. destruct (sim_nbs st i done n (nbs n) _ _ _ _ (fun k H => B k (HD k H)) E) as [P Q]. rewrite P. auto.
Qed.
Theorem std_max_space_eq st nbs l : space_cmds st nbs = Ok l -> std_max_space st nbs = Ok (snd (pms (length (sp_in st)) l)).
Proof.
  unfold space_cmds, std_max_space. destruct (has_loop st); [discriminate|]. set (i := length (sp_in st)).
  assert (P0 : (Z.of_nat i, Z.of_nat i) = pms i []) by reflexivity. rewrite P0. clear P0.
  destruct (rfold (sp_step_m st nbs) (sp_m st) ([], of_list (sp_in st), sempty)) as [[[c1 i1] d1]|] eqn:E1; [|discriminate]. cbn [rbind].
  assert (G : forall ms c init done c' init' done', (forall k, mem k done = true -> mem k init = true) -> rfold (sp_step_m st nbs) ms (c, init, done) = Ok (c', init', done') ->
     rfold (fun x m => do x <- activate_nb st nbs x (mc_node m); Ok (fst x, (fst (snd x) - 1, snd (snd x))%Z)) ms (init, pms i c) = Ok (init', pms i c') /\ forall k, mem k done' = true -> mem k init' = true).
  { clear. induction ms as [|m ms IH]; intros c init done c' init' done' HD; cbn [rfold]; [intros [= <- <- <-]; auto|].
    unfold sp_step_m at 1. destruct (ensure_nb st nbs done (c, init) (mc_node m)) as [[c1 i1]|] eqn:E; [|discriminate]. cbn [rbind fst snd].
    destruct (sim_nb st nbs i done _ _ _ _ _ HD E) as (A & M & B). rewrite A. cbn [rbind fst snd]. intros H.
    replace (fst (pms i c1) - 1, snd (pms i c1))%Z with (pms i (c1 ++ [mcmd_cmd m])) by (rewrite pms_snoc; reflexivity).
    eapply IH; [|exact H]. intros k. rewrite mem_sadd, orb_true_iff, Nat.eqb_eq. intros [->|K]; auto. }
  destruct (G _ _ _ _ _ _ _ (fun k (H : mem k sempty = true) => ltac:(rewrite mem_empty in H; discriminate)) E1) as [A HD]. rewrite A. cbn [rbind]. clear A E1 G.
  destruct (rfold (sp_step_out st nbs) (sp_out st) (c1, i1, d1)) as [[[c2 i2] d2]|] eqn:E2; [|discriminate]. cbn [rbind fst]. intros [= <-].
  assert (G : forall ms c init done c' init' done', (forall k, mem k done = true -> mem k init = true) -> rfold (sp_step_out st nbs) ms (c, init, done) = Ok (c', init', done') ->
     rfold (activate_nb st nbs) ms (init, pms i c) = Ok (init', pms i c')).
  { clear. induction ms as [|m ms IH]; intros c init done c' init' done' HD; cbn [rfold]; [intros [= <- <- <-]; auto|].
    unfold sp_step_out at 1. destruct (ensure_nb st nbs done (c, init) m) as [[c1 i1]|] eqn:E; [|discriminate]. cbn [rbind fst snd].
    destruct (sim_nb st nbs i done _ _ _ _ _ HD E) as (A & M & B). rewrite A. intros H.
    replace (pms i c1) with (pms i (c1 ++ out_cmds st m)).
    - eapply IH; [|exact H]. intros k. rewrite mem_sadd, orb_true_iff, Nat.eqb_eq. intros [->|K]; auto.
    - unfold pms. rewrite fold_left_app. unfold out_cmds. destruct (dget_ne (sp_z st) m), (dget_ne (sp_x st) m), (dget (sp_c st) m); reflexivity. }
  rewrite (G _ _ _ _ _ _ _ HD E2). reflexivity.
Qed.

(** * The value of max_space() *)
Definition card (s : nset) : nat := length (elems s).
(** inputs together with the closed neighbourhoods of a list of nodes *)
Definition nb_set (st : stdp) (nbs : nat -> list nat) (ns : list nat) : nset := of_list (sp_in st ++ flat_map (fun n => n :: nbs n) ns).
Lemma card_le s t : (forall n, mem n s = true -> mem n t = true) -> (card s <= card t)%nat.
Proof. intros H. apply NoDup_incl_length; [apply elems_NoDup|]. intros n. rewrite !elems_spec. auto. Qed.
Lemma card_list s l : NoDup l -> (forall n, In n l -> mem n s = true) -> (length l <= card s)%nat.
Proof. intros H1 H2. apply NoDup_incl_length; auto. intros n. rewrite elems_spec. auto. Qed.
Lemma card_list_eq s l : NoDup l -> (forall n, In n l <-> mem n s = true) -> card s = length l.
Proof. intros H1 H2. apply Permutation_length, NoDup_Permutation; auto. apply elems_NoDup. intros n. rewrite elems_spec, H2. tauto. Qed.
Lemma card_sadd n s : card (sadd n s) = if mem n s then card s else S (card s).
Proof.
  destruct (mem n s) eqn:E.
  - f_equal. apply nset_ext. intros k. rewrite mem_sadd. destruct (Nat.eqb_spec k n); subst; auto.
  - change (S (card s)) with (length (n :: elems s)). apply card_list_eq.
    + constructor; [rewrite elems_spec; congruence|apply elems_NoDup].
    + intros k. rewrite mem_sadd, orb_true_iff, Nat.eqb_eq. cbn [In]. rewrite elems_spec. intuition.
Qed.
Lemma activate_spec init num mx n : (num <= mx)%Z -> activate (init, (num, mx)) n =
  (sadd n init, (num + (Z.of_nat (card (sadd n init)) - Z.of_nat (card init)), Z.max mx (num + (Z.of_nat (card (sadd n init)) - Z.of_nat (card init)))))%Z.
Proof.
  intros H. unfold activate. cbn [fst snd]. rewrite card_sadd. destruct (mem n init) eqn:E.
  - f_equal; [|f_equal; lia]. apply nset_ext. intros k. rewrite mem_sadd. destruct (Nat.eqb_spec k n); subst; auto.
  - f_equal. f_equal; lia.
Qed.
Lemma activates_spec l : forall init num mx, (num <= mx)%Z -> let init' := fold_left (fun s n => sadd n s) l init in fold_left activate l (init, (num, mx)) =
  (init', (num + (Z.of_nat (card init') - Z.of_nat (card init)), Z.max mx (num + (Z.of_nat (card init') - Z.of_nat (card init)))))%Z /\
  forall k, mem k init' = mem k init || lmem k l.
Proof.
  induction l as [|n l IH]; intros init num mx H; cbn [fold_left].
  - split; [f_equal; f_equal; lia|]. intros k. cbn. rewrite orb_false_r. auto.
  - rewrite activate_spec by auto. destruct (IH (sadd n init) (num + (Z.of_nat (card (sadd n init)) - Z.of_nat (card init))) (Z.max mx (num + (Z.of_nat (card (sadd n init)) - Z.of_nat (card init)))))%Z as [A B]; [lia|].
    split.
    + cbn zeta in A. rewrite A. set (i' := fold_left (fun s n => sadd n s) l (sadd n init)) in *.
      assert (K1 : (card (sadd n init) <= card i')%nat) by (apply card_le; intros k K; rewrite B, K; auto).
      f_equal. f_equal; lia.
    + intros k. rewrite B, mem_sadd. cbn [lmem existsb]. destruct (k =? n)%nat, (mem k init), (existsb (Nat.eqb k) l) eqn:Q; unfold lmem; try rewrite Q; auto.
Qed.
Section Val.
Variables (st : stdp) (nbs : nat -> list nat).
Notation S_ := (nb_set st nbs).
Lemma nb_set_nil : S_ [] = of_list (sp_in st).
Proof. unfold nb_set. cbn. rewrite app_nil_r. auto. Qed.
Lemma nb_set_mem ns k : mem k (S_ ns) = true <-> In k (sp_in st) \/ exists n, In n ns /\ (k = n \/ In k (nbs n)).
Proof.
  unfold nb_set. rewrite mem_of_list, in_app_iff, in_flat_map. cbn [In]. split; intros [H|(n & H1 & H2)]; auto; right; exists n; (split; [auto|]); destruct H2; auto.
Qed.
Lemma nb_set_mono ns ns' : incl ns ns' -> forall k, mem k (S_ ns) = true -> mem k (S_ ns') = true.
Proof. intros H k. rewrite !nb_set_mem. intros [K|(n & K1 & K2)]; auto. right. exists n. auto. Qed.
Lemma activate_nb_spec ns n num mx : std_node st n -> (num <= mx)%Z ->
  activate_nb st nbs (S_ ns, (num, mx)) n = Ok (S_ (ns ++ [n]), (num + (Z.of_nat (card (S_ (ns ++ [n]))) - Z.of_nat (card (S_ ns))), Z.max mx (num + (Z.of_nat (card (S_ (ns ++ [n]))) - Z.of_nat (card (S_ ns))))))%Z.
Proof.
  intros Hn H. unfold activate_nb. rewrite (sp_nodes_node st n Hn). cbn [negb].
  change (fold_left activate (nbs n) (activate (S_ ns, (num, mx)) n)) with (fold_left activate (n :: nbs n) (S_ ns, (num, mx))).
  destruct (activates_spec (n :: nbs n) (S_ ns) num mx H) as [A B]. rewrite A.
  assert (E : fold_left (fun s n => sadd n s) (n :: nbs n) (S_ ns) = S_ (ns ++ [n])).
  { apply nset_ext. intros k. rewrite B. apply eq_true_iff_eq. rewrite orb_true_iff, !nb_set_mem, lmem_In. cbn [In]. setoid_rewrite in_app_iff. cbn [In]. split.
    - intros [[K|(m & K1 & K2)]|[K|K]]; auto; right; [exists m|exists n|exists n]; auto.
    - intros [K|(m & [K1|[<-|[]]] & K2)]; eauto. destruct K2; auto. }
  rewrite E. reflexivity.
Qed.
(** the space needed just before each measurement *)
Definition fits (ns : list nat) (B : Z) : Prop :=
  forall pre n post, ns = pre ++ n :: post -> (Z.of_nat (card (S_ (pre ++ [n]))) - Z.of_nat (length pre) <= B)%Z.
Lemma fits_snoc ns n B : fits (ns ++ [n]) B <-> fits ns B /\ (Z.of_nat (card (S_ (ns ++ [n]))) - Z.of_nat (length ns) <= B)%Z.
Proof.
  split.
  - intros H. split; [|apply (H ns n []); auto]. intros pre x post ->. apply (H pre x (post ++ [n])). rewrite <- app_assoc. auto.
  - intros [H1 H2] pre x post E. destruct post as [|y post _] using rev_ind.
    + apply app_inj_tail in E. destruct E as [-> ->]. auto.
    + rewrite app_comm_cons, app_assoc in E. apply app_inj_tail in E. destruct E as [-> ->]. eapply H1; eauto.
Qed.
Lemma loop_max ms : forall pre num mx, (forall m, In m ms -> std_node st (mc_node m)) -> (num <= mx)%Z ->
  (num = Z.of_nat (card (S_ pre)) - Z.of_nat (length pre))%Z ->
  exists mx', rfold (fun x m => do x <- activate_nb st nbs x (mc_node m); Ok (fst x, (fst (snd x) - 1, snd (snd x))%Z)) ms (S_ pre, (num, mx))
     = Ok (S_ (pre ++ map mc_node ms), (Z.of_nat (card (S_ (pre ++ map mc_node ms))) - Z.of_nat (length (pre ++ map mc_node ms)), mx')%Z)
   /\ (Z.of_nat (card (S_ (pre ++ map mc_node ms))) - Z.of_nat (length (pre ++ map mc_node ms)) <= mx')%Z
   /\ forall B, (forall B', (mx <= B')%Z <-> (Z.of_nat (card (of_list (sp_in st))) <= B')%Z /\ fits pre B') ->
       (mx' <= B)%Z <-> (Z.of_nat (card (of_list (sp_in st))) <= B)%Z /\ fits (pre ++ map mc_node ms) B.
Proof.
  induction ms as [|m ms IH]; intros pre num mx Hn Hm Hnum; cbn [rfold map].
  - exists mx. rewrite app_nil_r, <- Hnum. split; [auto|]. split; auto.
  - rewrite (activate_nb_spec pre (mc_node m) num mx) by (auto; apply Hn; left; auto). cbn [rbind fst snd].
    destruct (IH (pre ++ [mc_node m]) (num + (Z.of_nat (card (S_ (pre ++ [mc_node m]))) - Z.of_nat (card (S_ pre))) - 1) (Z.max mx (num + (Z.of_nat (card (S_ (pre ++ [mc_node m]))) - Z.of_nat (card (S_ pre))))))%Z as (mx' & A & B & C).
    + intros x Hx. apply Hn; right; auto.
    + lia.
    + rewrite app_length. cbn [length]. lia.
    + rewrite <- app_assoc in A, B, C. cbn [app] in A, B, C. exists mx'. split; [exact A|]. split; auto. intros B0 HB. apply C. intros B'.
      rewrite fits_snoc, <- and_assoc, <- HB. lia.
Qed.
Lemma loop_max_out ns : forall pre k num mx, (forall n, In n ns -> std_node st n) -> (num <= mx)%Z ->
  (num = Z.of_nat (card (S_ pre)) - k)%Z ->
  exists num' mx', rfold (activate_nb st nbs) ns (S_ pre, (num, mx)) = Ok (S_ (pre ++ ns), (num', mx'))
   /\ mx' = Z.max mx (Z.of_nat (card (S_ (pre ++ ns))) - k).
Proof.
  induction ns as [|n ns IH]; intros pre k num mx Hn Hm Hnum; cbn [rfold].
  - exists num, mx. rewrite app_nil_r, <- Hnum. split; [auto|]. lia.
  - rewrite (activate_nb_spec pre n num mx) by (auto; apply Hn; left; auto).
    destruct (IH (pre ++ [n]) k (num + (Z.of_nat (card (S_ (pre ++ [n]))) - Z.of_nat (card (S_ pre)))) (Z.max mx (num + (Z.of_nat (card (S_ (pre ++ [n]))) - Z.of_nat (card (S_ pre))))))%Z as (num' & mx' & A & B).
    + intros x Hx. apply Hn; right; auto.
    + lia.
    + lia.
    + rewrite <- app_assoc in A, B. cbn [app] in A, B. exists num', mx'. split; [exact A|]. rewrite B.
      assert (K : (card (S_ (pre ++ [n])) <= card (S_ (pre ++ n :: ns)))%nat) by (apply card_le, nb_set_mono; intros x; rewrite !in_app_iff; cbn; tauto).
      lia.
Qed.
Theorem std_max_space_char : std_wf st -> std_out_ok st -> NoDup (sp_in st) -> has_loop st = false ->
  exists mx, std_max_space st nbs = Ok mx /\ forall B, (mx <= B)%Z <->
    (Z.of_nat (length (sp_in st)) <= B)%Z /\ fits (map mc_node (sp_m st)) B /\
    (Z.of_nat (card (S_ (map mc_node (sp_m st) ++ sp_out st))) - Z.of_nat (length (sp_m st)) <= B)%Z.
Proof.
  intros W [NO HO] NI HL. unfold std_max_space. rewrite HL. rewrite <- nb_set_nil.
  assert (CI : card (of_list (sp_in st)) = length (sp_in st)) by (apply card_list_eq; auto; intros n; rewrite mem_of_list; tauto).
  destruct (loop_max (sp_m st) [] (Z.of_nat (length (sp_in st))) (Z.of_nat (length (sp_in st)))) as (mx & A & B & C).
  - intros m Hm. apply (sw_mn _ W). apply in_map. auto.
  - lia.
  - rewrite nb_set_nil, CI. cbn. lia.
  - cbn [app] in A, B, C. rewrite A. cbn [rbind].
    destruct (loop_max_out (sp_out st) (map mc_node (sp_m st)) (Z.of_nat (length (map mc_node (sp_m st)))) _ mx (fun n Hn => proj1 (proj1 (HO n) Hn)) B eq_refl) as (num' & mx' & D & E).
    rewrite D. cbn [rbind snd]. exists mx'. split; auto. intros B0. rewrite E, Z.max_lub_iff, map_length, <- and_assoc.
    rewrite (C B0), CI; [tauto|]. intros B'. rewrite CI. split; [|tauto]. intros H. split; auto. intros pre n post. destruct pre; discriminate.
Qed.
End Val.

(** * Optimality for a given measurement order *)
Lemma pms_fst i l : fst (pms i l) = (Z.of_nat i + Z.of_nat (length (ns_of l)) - Z.of_nat (length (ms_of l)))%Z.
Proof.
  induction l as [|c l IH] using rev_ind; [cbn; lia|]. rewrite pms_snoc, ns_of_app, ms_of_app, !app_length.
  destruct c; cbn [pms_step fst ns_of ms_of flat_map app length]; rewrite IH; cbn; lia.
Qed.
Lemma pms_ge i l : (fst (pms i l) <= snd (pms i l))%Z /\ (Z.of_nat i <= snd (pms i l))%Z.
Proof.
  induction l as [|c l IH] using rev_ind; [cbn; lia|]. rewrite pms_snoc. destruct c; cbn [pms_step fst snd]; lia.
Qed.
Lemma pms_mono i l l' : (snd (pms i l) <= snd (pms i (l ++ l')))%Z.
Proof.
  induction l' as [|c l' IH] using rev_ind; [rewrite app_nil_r; lia|]. rewrite app_assoc, pms_snoc. destruct c; cbn [pms_step fst snd]; lia.
Qed.
Lemma ms_of_split l : forall pre n post, ms_of l = pre ++ n :: post -> exists l1 m s t l2, l = l1 ++ CM n m s t :: l2 /\ ms_of l1 = pre.
Proof.
  induction l as [|c l IH]; intros pre n post E; [destruct pre; discriminate|].
  change (c :: l) with ([c] ++ l) in E. rewrite ms_of_app in E.
  assert (D : (exists k m s t, c = CM k m s t) \/ ms_of [c] = []) by (destruct c; eauto 6).
  destruct D as [(k & m & s & t & ->)|D].
  - cbn in E. destruct pre as [|p pre]; injection E as -> E.
    + exists [], m, s, t, l. auto.
    + destruct (IH _ _ _ E) as (l1 & m' & s' & t' & l2 & -> & <-). exists (CM p m s t :: l1), m', s', t', l2. auto.
  - rewrite D in E. destruct (IH _ _ _ E) as (l1 & m' & s' & t' & l2 & -> & <-). exists (c :: l1), m', s', t', l2. split; auto.
    change (c :: l1) with ([c] ++ l1). rewrite ms_of_app, D. auto.
Qed.
(** [q] executes every edge of the standardized pattern and prepares its nodes *)
Definition covers (st : stdp) (q : pattern) : Prop :=
  (forall n, std_node st n -> exists_node (p_in q) (p_seq q) n) /\
  (forall u v, In (edge_norm (u, v)) (sp_e st) -> In (CE u v) (p_seq q) \/ In (CE v u) (p_seq q)).
Theorem space_optimal st nbs q mx : std_wf st -> std_out_ok st -> NoDup (sp_in st) -> nbs_ok st nbs -> has_loop st = false ->
  std_max_space st nbs = Ok mx -> runnable (p_in q) (p_seq q) -> p_in q = sp_in st -> ms_of (p_seq q) = map mc_node (sp_m st) -> covers st q ->
  (mx <= pattern_max_space q)%Z.
Proof.
  intros W SO NI NB HL E R HI HM [C1 C2]. destruct (std_max_space_char st nbs W SO NI HL) as (mx' & E' & H). rewrite E in E'. injection E' as <-.
  apply H. unfold pattern_max_space. rewrite HI in *. split; [apply pms_ge|]. split.
  - intros pre n post EQ. rewrite <- HM in EQ. destruct (ms_of_split _ _ _ _ EQ) as (l1 & m & s & t & l2 & EL & EP).
    rewrite EL in *. set (l := l1 ++ CM n m s t :: l2) in *.
    assert (R1 : runnable (sp_in st) l1) by (eapply runnable_app_l; exact R).
    assert (LV : live (sp_in st) l1 n) by (apply (R l1 _ l2 eq_refl)).
    assert (IN : forall x, In x (pre ++ [n]) -> exists_node (sp_in st) l1 x).
    { intros x Hx. apply in_app_or in Hx. destruct Hx as [Hx|[<-|[]]]; [|apply LV]. rewrite <- EP in Hx. apply (runnable_NoDup _ _ R1); auto. }
    assert (EX : forall x a b, In x (pre ++ [n]) -> (x = a \/ x = b) -> In (CE a b) l -> exists_node (sp_in st) l1 a /\ exists_node (sp_in st) l1 b).
    { intros x a b Hx Hab Hc. apply in_split in Hc. destruct Hc as (a1 & a2 & Ea).
      assert (K := R a1 _ a2 Ea). destruct K as [K1 K2].
      assert (NMx : ~ measured_in a1 x) by (destruct Hab; subst x; [apply K1|apply K2]).
      assert (Hp : exists d, l1 = a1 ++ d).
      { assert (D : (exists d, l1 = a1 ++ d) \/ exists d, a1 = l1 ++ CM n m s t :: d).
        { unfold l in Ea. clear - Ea. revert a1 Ea. induction l1 as [|c l1 IH]; intros a1 Ea; cbn [app] in Ea.
          - destruct a1 as [|c' a1]; [left; exists []; auto|]. injection Ea as <- Ea. right. exists a1. auto.
          - destruct a1 as [|c' a1]; [left; exists (c :: l1); auto|]. injection Ea as <- Ea. destruct (IH _ Ea) as [(d & ->)|(d & ->)]; [left|right]; exists d; auto. }
        destruct D as [D|(d & ->)]; auto. exfalso. apply NMx. apply in_app_or in Hx. destruct Hx as [Hx|[<-|[]]].
        - rewrite <- EP in Hx. apply ms_of_In in Hx. destruct Hx as (? & ? & ? & Hx). do 3 eexists. apply in_or_app. left. exact Hx.
        - do 3 eexists. apply in_or_app. right. left. reflexivity. }
      destruct Hp as (d & ->). split; [destruct K1 as [[K|(z & K)] _]|destruct K2 as [[K|(z & K)] _]]; auto; [left; auto|right; exists z; apply in_or_app; auto|left; auto|right; exists z; apply in_or_app; auto]. }
    assert (SUB : (card (nb_set st nbs (pre ++ [n])) <= length (sp_in st ++ map fst (ns_of l1)))%nat).
    { apply NoDup_incl_length; [apply elems_NoDup|]. intros k. rewrite elems_spec, nb_set_mem, <- exists_node_ns. intros [K|(x & K1 & [->|K2])].
      - left; auto.
      - auto.
      - apply NB in K2. destruct (C2 _ _ K2) as [K|K]; [destruct (EX x x k K1 (or_introl eq_refl) K)|destruct (EX x k x K1 (or_intror eq_refl) K)]; auto. }
    rewrite app_length, map_length in SUB.
    assert (P := pms_ge (length (sp_in st)) l1). rewrite pms_fst, EP in P.
    assert (Q := pms_mono (length (sp_in st)) l1 (CM n m s t :: l2)). fold l in Q. lia.
  - assert (SUB : (card (nb_set st nbs (map mc_node (sp_m st) ++ sp_out st)) <= length (sp_in st ++ map fst (ns_of (p_seq q))))%nat).
    { apply NoDup_incl_length; [apply elems_NoDup|]. intros k. rewrite elems_spec, nb_set_mem, <- exists_node_ns.
      assert (SN : std_node st k -> exists_node (sp_in st) (p_seq q) k) by apply C1.
      intros [K|(x & K1 & K2)]; [left; auto|]. apply SN. destruct K2 as [->|K2].
      - apply in_app_or in K1. destruct K1 as [K1|K1]; [apply (sw_mn _ W); auto|apply SO; auto].
      - apply NB in K2. destruct (sw_e _ W _ K2) as (A & B & _). destruct (edge_norm_cases (x, k)) as [Q|Q]; rewrite Q in A, B; auto. }
    rewrite app_length, map_length in SUB. assert (P := pms_ge (length (sp_in st)) (p_seq q)). rewrite pms_fst, HM, map_length in P. lia.
Qed.

(** * Changing the measurement order *)
Definition set_m (st : stdp) (ms : list mcmd) : stdp := Std (sp_in st) (sp_out st) (sp_n st) (sp_e st) ms (sp_z st) (sp_x st) (sp_c st).
Lemma m_ops_perm o ms ms' : NoDup (map mc_node ms) -> Permutation ms ms' -> m_ops o ms ≈ m_ops o ms'.
Proof.
  intros H P. revert H. induction P as [|m l l' P IH|m m' l|l1 l2 l3 P1 IH1 P2 IH2]; intros H; cbn [map] in *.
  - reflexivity.
  - inversion H; subst. unfold m_ops. cbn [map]. change (seq_ops o (mcmd_cmd m :: map mcmd_cmd l)) with (cmd_ops o (mcmd_cmd m) ++ m_ops o l).
    change (seq_ops o (mcmd_cmd m :: map mcmd_cmd l')) with (cmd_ops o (mcmd_cmd m) ++ m_ops o l'). apply leq_app_l. auto.
  - unfold m_ops. cbn [map].
    change (seq_ops o (mcmd_cmd m' :: mcmd_cmd m :: map mcmd_cmd l)) with (cmd_ops o (mcmd_cmd m') ++ cmd_ops o (mcmd_cmd m) ++ m_ops o l).
    change (seq_ops o (mcmd_cmd m :: mcmd_cmd m' :: map mcmd_cmd l)) with (cmd_ops o (mcmd_cmd m) ++ cmd_ops o (mcmd_cmd m') ++ m_ops o l).
    rewrite !app_assoc. apply leq_app_r. apply comm_ll. intros p q Hp Hq n Hn Hn'. inversion H as [|? ? K _]; subst. apply K. left.
    cbn in Hp, Hq. destruct Hp as [<-|[]], Hq as [<-|[]]. destruct Hn as [<-|[]], Hn' as [<-|[]]. auto.
  - rewrite IH1, IH2; auto; [reflexivity|]. eapply Permutation_NoDup; [apply Permutation_map; exact P1|auto].
Qed.
Lemma set_m_wf st ms : std_wf st -> Permutation ms (sp_m st) -> ms_ordered ms -> std_wf (set_m st ms).
Proof.
  intros W P O. assert (MM : forall n, std_meas (set_m st ms) n <-> std_meas st n).
  { intros n. unfold std_meas. cbn. split; apply Permutation_in, Permutation_map; auto. apply Permutation_sym; auto. }
  constructor; try (exact (sw_nN _ W) || exact (sw_nin _ W) || exact (sw_eN _ W) || exact (sw_e _ W) || exact (sw_zN _ W) || exact (sw_xN _ W) || exact (sw_cN _ W)); auto.
  - eapply Permutation_NoDup; [apply Permutation_sym, Permutation_map; exact P|apply W].
  - intros n Hn. apply MM in Hn. apply (sw_mn _ W n Hn).
  - intros n Hn. rewrite MM. apply (sw_zk _ W n Hn).
  - intros n Hn. rewrite MM. apply (sw_xk _ W n Hn).
  - intros n Hn. rewrite MM. apply (sw_ck _ W n Hn).
  - intros n k Hk. apply MM. apply (sw_zd _ W n k Hk).
  - intros n k Hk. apply MM. apply (sw_xd _ W n k Hk).
Qed.
Lemma set_m_out st ms : Permutation ms (sp_m st) -> std_out_ok st -> std_out_ok (set_m st ms).
Proof.
  intros P [A B]. split; auto. intros n. cbn. rewrite B. unfold std_node, std_meas. cbn.
  assert (K : In n (map mc_node ms) <-> In n (map mc_node (sp_m st))) by (split; apply Permutation_in, Permutation_map; auto; apply Permutation_sym; auto). rewrite K. tauto.
Qed.
Lemma set_m_sem st ms es o : std_wf st -> Permutation ms (sp_m st) -> same_branch o (std_cmds st es) (std_cmds (set_m st ms) es).
Proof.
  intros W P. unfold same_branch, std_cmds. cbn [set_m sp_n sp_m sp_z sp_x sp_c]. rewrite !seq_ops_app. do 2 apply leq_app_l. apply leq_app_r.
  change (m_ops o (sp_m st) ≈ m_ops o ms). apply m_ops_perm; [apply W|apply Permutation_sym; auto].
Qed.
Lemma set_m_nbs st ms nbs : nbs_ok st nbs -> nbs_ok (set_m st ms) nbs.
Proof. auto. Qed.
Lemma set_m_set_m st ms ms' : set_m (set_m st ms) ms' = set_m st ms'.
Proof. reflexivity. Qed.
Lemma set_m_self st : set_m st (sp_m st) = st.
Proof. destruct st; reflexivity. Qed.

(** * minimize_space *)
(** a heuristic returns a measurement order and whether it is known to be
    optimal, or None *)
Definition heuristic := stdp -> res (option (list nat * bool)).
(** space_minimization.py:301 m_dict *)
Definition m_lookup (ms : list mcmd) (n : nat) : res mcmd :=
  match find (fun m => (mc_node m =? n)%nat) (rev ms) with Some m => Ok m | None => Err EKey end.
Fixpoint m_sort (ms : list mcmd) (order : list nat) : res (list mcmd) :=
  match order with [] => Ok [] | n :: order' => do m <- m_lookup ms n; do l <- m_sort ms order'; Ok (m :: l) end.
(** space_minimization.py:303-318 the loop; [best] is best_pattern_with_max_space *)
Fixpoint min_loop (nbs : nat -> list nat) (st : stdp) (hs : list heuristic) (best : option (stdp * Z)) : res stdp :=
  match hs with
  | [] => Ok (match best with Some b => fst b | None => st end)
  | h :: hs' =>
      do r <- h st;
      match r with
      | None => min_loop nbs st hs' best
      | Some (order, opt) =>
          do ms <- m_sort (sp_m st) order;
          if opt then Ok (set_m st ms) else
          do sp <- std_max_space (set_m st ms) nbs;
          min_loop nbs st hs' (match best with
                               | Some (b, bs) => if (bs <=? sp)%Z then best else Some (set_m st ms, sp)
                               | None => Some (set_m st ms, sp) end)
      end
  end.
(** space_minimization.py:263-318 minimize_space with the given heuristics *)
Definition minimize_space (nbs : nat -> list nat) (st : stdp) (hs : list heuristic) : res stdp := min_loop nbs st hs None.
(** space_minimization.py:202-217 order_unchanged *)
Definition h_unchanged : heuristic := fun st => Ok (Some (map mc_node (sp_m st), false)).

(** a measurement order a pattern may be executed in: each measured node once,
    after the nodes its domains refer to *)
Definition good_order (st : stdp) (ord : list nat) : Prop :=
  Permutation ord (map mc_node (sp_m st)) /\
  forall pre n post m k, ord = pre ++ n :: post -> In m (sp_m st) -> mc_node m = n -> mem k (mc_s m) = true \/ mem k (mc_t m) = true -> In k pre.
Lemma m_lookup_ok ms n : In n (map mc_node ms) -> exists m, m_lookup ms n = Ok m /\ In m ms /\ mc_node m = n.
Proof.
  intros H. unfold m_lookup. destruct (find (fun m => (mc_node m =? n)%nat) (rev ms)) as [m|] eqn:E.
  - apply find_some in E. destruct E as [E1 E2]. apply Nat.eqb_eq in E2. apply in_rev in E1. eauto.
  - exfalso. apply in_map_iff in H. destruct H as (m & <- & H). apply in_rev in H. eapply find_none in E; eauto. cbn in E. rewrite Nat.eqb_refl in E. discriminate.
Qed.
Lemma m_sort_ok ms order : (forall n, In n order -> In n (map mc_node ms)) ->
  exists l, m_sort ms order = Ok l /\ map mc_node l = order /\ (forall m, In m l -> In m ms).
Proof.
  induction order as [|n order IH]; intros H.
  - exists []. split; [auto|]. split; auto. intros m [].
  - destruct (m_lookup_ok ms n (H n (or_introl eq_refl))) as (m & E & I & Q). destruct IH as (l & E2 & I2 & Q2); [intros; apply H; right; auto|].
    cbn [m_sort]. rewrite E. cbn [rbind]. rewrite E2. cbn [rbind]. exists (m :: l). split; auto. cbn [map]. rewrite Q, I2. split; auto. intros m' [<-|K]; auto.
Qed.
Lemma NoDup_map_eq {A B} (f : A -> B) l a b : NoDup (map f l) -> In a l -> In b l -> f a = f b -> a = b.
Proof.
  induction l as [|c l IH]; intros H Ha Hb E; [destruct Ha|]. cbn in H. inversion H as [|? ? K1 K2]; subst.
  destruct Ha as [<-|Ha], Hb as [<-|Hb]; auto; exfalso; apply K1; [rewrite E|rewrite <- E]; apply in_map; auto.
Qed.
Lemma m_sort_perm ms order l : NoDup (map mc_node ms) -> Permutation order (map mc_node ms) -> m_sort ms order = Ok l -> Permutation l ms /\ map mc_node l = order.
Proof.
  intros ND P E. destruct (m_sort_ok ms order) as (l' & E' & M & I); [intros n; apply Permutation_in; auto|]. rewrite E in E'. injection E' as <-. split; auto.
  assert (NDo : NoDup (map mc_node l)) by (rewrite M; eapply Permutation_NoDup; [apply Permutation_sym; exact P|auto]).
  apply NoDup_Permutation; [eapply NoDup_map_inv; exact NDo|eapply NoDup_map_inv; exact ND|].
  intros m. split; auto. intros Hm.
  assert (K : In (mc_node m) (map mc_node l)) by (rewrite M; eapply Permutation_in; [apply Permutation_sym; exact P|apply in_map; auto]).
  apply in_map_iff in K. destruct K as (m' & K1 & K2). rewrite <- (NoDup_map_eq mc_node ms m' m ND (I _ K2) Hm K1). auto.
Qed.
(** a pattern that differs from [st] only by a legitimate measurement order *)
Definition reordered (st st' : stdp) : Prop := exists ms, st' = set_m st ms /\ Permutation ms (sp_m st) /\ ms_ordered ms.
Lemma good_order_sort st ord : std_wf st -> good_order st ord -> exists ms, m_sort (sp_m st) ord = Ok ms /\ Permutation ms (sp_m st) /\ ms_ordered ms /\ map mc_node ms = ord.
Proof.
  intros W [P D]. destruct (m_sort_ok (sp_m st) ord) as (l & E & M & I); [intros n; apply Permutation_in; auto|].
  exists l. destruct (m_sort_perm _ _ _ (sw_mN _ W) P E) as [P' _]. split; auto. split; auto. split; auto.
  intros pre m post -> k Hk. rewrite map_app in M. cbn [map] in M.
  eapply D; [symmetry; exact M| |reflexivity|exact Hk]. apply I, in_or_app. right; left; auto.
Qed.
Lemma reordered_refl st : std_wf st -> reordered st st.
Proof. intros W. exists (sp_m st). rewrite set_m_self. split; auto. split; auto. apply W. Qed.
(** what is required of a heuristic *)
Definition heur_ok (st : stdp) (h : heuristic) : Prop :=
  h st = Ok None \/ exists ord opt, h st = Ok (Some (ord, opt)) /\ good_order st ord.
Lemma h_unchanged_ok st : std_wf st -> heur_ok st h_unchanged.
Proof.
  intros W. right. eexists _, _. split; [reflexivity|]. split; [apply Permutation_refl|]. intros pre n post m k E Hm <- Hk.
  apply in_split in Hm. destruct Hm as (a & b & Em). assert (K := sw_ord _ W a m b Em k Hk).
  rewrite Em, map_app in E. cbn [map] in E.
  assert (pre = map mc_node a); [|subst; auto]. assert (ND := sw_mN _ W). rewrite Em, map_app in ND. cbn [map] in ND. revert ND E. clear.
  generalize (map mc_node a) (map mc_node b) (mc_node m). intros l r x. revert pre. induction l as [|y l IH]; intros pre ND E; cbn [app] in *.
  - destruct pre as [|z pre]; auto. injection E as -> E. inversion ND as [|? ? K _]; subst. exfalso. apply K, in_or_app. right; left; auto.
  - inversion ND as [|? ? K1 K2]; subst. destruct pre as [|z pre]; injection E as -> E; [exfalso; apply K1, in_or_app; right; left; auto|]. f_equal. eapply IH; eauto.
Qed.
Section Min.
Variables (st : stdp) (nbs : nat -> list nat).
Hypotheses (W : std_wf st) (SO : std_out_ok st) (NI : NoDup (sp_in st)) (NB : nbs_ok st nbs) (HL : has_loop st = false).
Lemma reordered_wf st' : reordered st st' -> std_wf st' /\ std_out_ok st' /\ sp_in st' = sp_in st /\ sp_out st' = sp_out st /\ sp_n st' = sp_n st /\ sp_e st' = sp_e st /\ has_loop st' = false /\
  forall es o, same_branch o (std_cmds st es) (std_cmds st' es).
Proof.
  intros (ms & -> & P & O). split; [apply set_m_wf; auto|]. split; [apply set_m_out; auto|]. do 5 (split; [auto|]). intros es o. apply set_m_sem; auto.
Qed.
Lemma reordered_space st' : reordered st st' -> exists sp, std_max_space st' nbs = Ok sp.
Proof.
  intros H. destruct (reordered_wf _ H) as (W' & SO' & E1 & E2 & E3 & E4 & HL' & _).
  destruct (std_max_space_char st' nbs W' SO') as (sp & E & _); eauto. rewrite E1; auto.
Qed.
Lemma min_loop_ok hs : forall best, (forall h, In h hs -> heur_ok st h) ->
  (match best with Some (b, bs) => reordered st b /\ std_max_space b nbs = Ok bs | None => True end) ->
  exists st', min_loop nbs st hs best = Ok st' /\ reordered st st' /\ exists sp', std_max_space st' nbs = Ok sp' /\
    ((exists h ord, In h hs /\ h st = Ok (Some (ord, true)) /\ map mc_node (sp_m st') = ord) \/
     ((forall b bs, best = Some (b, bs) -> (sp' <= bs)%Z) /\
      (forall h ord opt ms spo, In h hs -> h st = Ok (Some (ord, opt)) -> m_sort (sp_m st) ord = Ok ms -> std_max_space (set_m st ms) nbs = Ok spo -> (sp' <= spo)%Z))).
Proof.
  induction hs as [|h hs IH]; intros best Hh Hb; cbn [min_loop].
  - destruct best as [[b bs]|].
    + destruct Hb as [R S]. exists b. split; auto. split; auto. exists bs. split; auto. right. split; [intros ? ? [= <- <-]; lia|]. intros ? ? ? ? ? [].
    + exists st. split; auto. split; [apply reordered_refl; auto|]. destruct (reordered_space st (reordered_refl st W)) as (sp & S). exists sp. split; auto.
      right. split; [discriminate|]. intros ? ? ? ? ? [].
  - destruct (Hh h (or_introl eq_refl)) as [E|(ord & opt & E & G)]; rewrite E; cbn [rbind].
    + destruct (IH best (fun h' H => Hh h' (or_intror H)) Hb) as (st' & A & B & sp' & C & D). exists st'. split; auto. split; auto. exists sp'. split; auto.
      destruct D as [(h' & ord & D1 & D2)|[D1 D2]]; [left; exists h', ord; split; [right; auto|auto]|right]. split; auto.
      intros h' ord opt ms spo [<-|H]; [congruence|]. eapply D2; eauto.
    + destruct (good_order_sort st ord W G) as (ms & M & P & O & Q). rewrite M. cbn [rbind].
      assert (R : reordered st (set_m st ms)) by (exists ms; auto). destruct (reordered_space _ R) as (sp & S). destruct opt.
      * exists (set_m st ms). split; auto. split; auto. exists sp. split; auto. left. exists h, ord. split; [left; auto|]. auto.
      * rewrite S. cbn [rbind].
        set (best' := match best with Some (b, bs) => if (bs <=? sp)%Z then best else Some (set_m st ms, sp) | None => Some (set_m st ms, sp) end).
        assert (HB' : exists b bs, best' = Some (b, bs) /\ reordered st b /\ std_max_space b nbs = Ok bs /\ (bs <= sp)%Z /\ forall b0 bs0, best = Some (b0, bs0) -> (bs <= bs0)%Z).
        { unfold best'. destruct best as [[b bs]|].
          - destruct Hb as [R1 S1]. destruct (Z.leb_spec bs sp).
            + exists b, bs. split; auto. split; auto. split; auto. split; auto. intros ? ? [= <- <-]. lia.
            + exists (set_m st ms), sp. split; auto. split; auto. split; auto. split; [lia|]. intros ? ? [= <- <-]. lia.
          - exists (set_m st ms), sp. split; auto. split; auto. split; auto. split; [lia|discriminate]. }
        destruct HB' as (b & bs & HB & R1 & S1 & L1 & L2). rewrite HB.
        destruct (IH (Some (b, bs)) (fun h' H => Hh h' (or_intror H)) (conj R1 S1)) as (st' & A & B & sp' & C & D). exists st'. split; auto. split; auto. exists sp'. split; auto.
        destruct D as [(h' & ord' & D1 & D2)|[D1 D2]]; [left; exists h', ord'; split; [right; auto|auto]|right]. specialize (D1 _ _ eq_refl). split.
        -- intros b0 bs0 Q0. specialize (L2 _ _ Q0). lia.
        -- intros h' ord' opt ms' spo [<-|H] K1 K2 K3; [|eapply D2; eauto]. rewrite E in K1. injection K1 as <- <-. rewrite M in K2. injection K2 as <-. rewrite S in K3. injection K3 as <-. lia.
Qed.
End Min.
