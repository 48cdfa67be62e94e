(** Model of the extraction of flows from XZ-corrections: flow/core.py:211-323
    (to_causalflow, to_gflow, to_pauliflow) and 1462-1602
    (_solve_pauli_correction_set, _reconstruct_pauli_correction_function). *)
From Coq Require Import Reals Arith ZArith List Bool Lia Permutation.
From Verif Require Import Cplx Mat2 NSet QState Fundamentals CliffordDb Clifford Measure Layer Pattern Standardize
  FlowSem FlowDet OpenGraph FlowSpec Flow FlowWF FlowPat Corr SpaceHeur Linalg LinalgThm.
Import ListNotations.

(** * The code *)
(** flow/core.py:1587-1592 [future_of]: the nodes of the previously listed layers *)
Definition future_of (it : iter) (ls : list nset) : dict nset :=
  fst (fold_left (fun st l => (fold_left (fun d n => dset d n (snd st)) (it l) (fst st), sunion (snd st) l)) ls ([], sempty)).
(** flow/core.py:1583 [adjacency[g]]; KeyError if [g] is not a node of the graph *)
Definition adj_at (og : opengraph) (g : nat) : res nset := if mem g (og_nodes og) then Ok (nbh (og_graph og) g) else Err EKey.
(** flow/core.py:1584 [labels.get(g)] *)
Definition label_at (og : opengraph) (g : nat) : option label := option_map mlabel (dget (og_meas og) g).
(** [label in {Plane.XZ, Plane.YZ, Axis.Z}] *)
Definition self_in (l : label) : bool := match l with LPlane PXZ | LPlane PYZ | LAxis AZ => true | _ => false end.
(** flow/core.py:1495-1496 const_at, row_at; [row_at] with the bit of [g] itself flipped *)
Definition const_at (a fixed : nset) : bool := Nat.odd (length (elems (sinter a fixed))).
Definition row_at (a : nset) (vars : list nat) : list bool := map (fun v => mem v a) vars.
Definition row_flip (a : nset) (g : nat) (vars : list nat) : list bool := map (fun v => xorb (mem v a) (v =? g)%nat) vars.
(** flow/core.py:1546-1571 the solution of the system *)
Definition gf2_solve (vars : list nat) (fixed : nset) (rows : list (list bool * bool)) : option nset :=
  match rows with
  | [] => Some fixed
  | _ =>
    let n := length vars in
    let aug := mdata (gauss_elimination n (Mat (length rows) (S n) (map (fun p => fst p ++ [snd p]) rows))) in
    if existsb (fun r => negb (any_row n r) && nth n r false) aug then None
    else
      let sol := solve_f2 (Mat (length rows) n (map (firstn n) aug)) (map (fun r => nth n r false) aug) in
      Some (fold_left (fun (s : nset) (p : nat * bool) => if snd p then sadd (fst p) s else s) (combine vars sol) fixed)
  end.
(** flow/core.py:1462-1571 _solve_pauli_correction_set *)
Definition pc_solve (it : iter) (xz : xzcorr) (node : nat) (future : nset) : res (option nset) :=
  let og := xz_og xz in
  let non_inputs := sdiff (og_nodes og) (of_list (og_in og)) in
  let x_corr := dgets (xz_x xz) node in
  let z_corr := dgets (xz_z xz) node in
  do label <- of_opt EKey (label_at og node);
  if self_in label && negb (mem node non_inputs) then Ok None else
  let others := sremove node (sdiff (og_nodes og) future) in
  let vars := filter (fun a => mem a non_inputs && match label_at og a with Some l => lab_in_XY l | None => false end) (it (sunion others (sing node))) in
  let fixed := if self_in label then sadd node x_corr else x_corr in
  do r1 <- rmap (fun g => do a <- adj_at og g; Ok (row_at a vars, xorb (mem g z_corr) (const_at a fixed))) (it future);
  do r2 <- rmap (fun g => do l <- of_opt EAssert (label_at og g); do a <- adj_at og g;
                   Ok (match l with LAxis AZ => [] | LAxis AY => [(row_flip a g vars, const_at a fixed)] | _ => [(row_at a vars, const_at a fixed)] end)) (it others);
  do a <- adj_at og node;
  let r3 := match label with
            | LAxis AY => [(row_flip a node vars, xorb true (const_at a fixed))]
            | LAxis AZ => []
            | LPlane PYZ => [(row_at a vars, xorb false (const_at a fixed))]
            | _ => [(row_at a vars, xorb true (const_at a fixed))]
            end in
  Ok (gf2_solve vars fixed (r1 ++ concat r2 ++ r3)).
(** flow/core.py:1577-1601 _reconstruct_pauli_correction_function *)
Definition reconstruct (it : iter) (xz : xzcorr) : res (dict nset) :=
  let fut := future_of it (xz_layers xz) in
  rfold (fun d p => do F <- of_opt EKey (dget fut (fst p)); do s <- pc_solve it xz (fst p) F;
                    match s with Some s => Ok (dset d (fst p) s) | None => Err EFlow end) (og_meas (xz_og xz)) [].
(** flow/core.py:271-323 XZCorrections.to_pauliflow *)
Definition xz_to_pauliflow (it : iter) (xz : xzcorr) : res pflow :=
  do cf <- reconstruct it xz; Ok (PF (xz_og xz) cf (xz_layers xz)).
(** flow/core.py:211-234 XZCorrections.to_causalflow *)
Definition xz_to_causalflow (it : iter) (xz : xzcorr) : res pflow :=
  let f := PF (xz_og xz) (xz_x xz) (xz_layers xz) in do _ <- cf_check it f; Ok f.
(** flow/core.py:238-263 XZCorrections.to_gflow; [to_plane] fails on Pauli measurements *)
Definition xz_to_gflow (it : iter) (xz : xzcorr) : res pflow :=
  do cf <- rfold (fun d p => do pl <- mplane (snd p);
                   Ok (dset d (fst p) (match pl with PXY => dgets (xz_x xz) (fst p) | _ => sadd (fst p) (dgets (xz_x xz) (fst p)) end)))
                 (og_meas (xz_og xz)) [];
  let f := PF (xz_og xz) cf (xz_layers xz) in do _ <- gf_check it f; Ok f.
(** flow/core.py:331-339 XZCorrections.downcast_bloch, with opengraph.py:212-240 *)
Definition xz_downcast (xz : xzcorr) : res xzcorr :=
  if forallb (fun p => is_bloch (snd p)) (og_meas (xz_og xz)) then Ok xz else Err EType.

(** * The linear system *)
(** [y] satisfies all the equations *)
Definition sat (n : nat) (rows : list (list bool * bool)) (y : nat -> bool) : Prop :=
  forall p, In p rows -> xsum n (fun j => nth j (fst p) false && y j) = snd p.
Lemma sat_space n rows y : (forall p, In p rows -> length (fst p) = n) ->
  let A := map (fun p => fst p ++ [snd p]) rows in
  let y' := fun j => if (j =? n)%nat then true else y j in
  sat n rows y <-> forall v, in_rowspace (length rows) (S n) A v -> xsum (S n) (fun j => v j && y' j) = false.
Proof.
  intros HL A y'.
  assert (E : forall i, i < length rows -> xsum (S n) (fun j => ent A i j && y' j) = xorb (xsum n (fun j => nth j (fst (nth i rows ([], false))) false && y j)) (snd (nth i rows ([], false)))).
  { intros i Hi. assert (ER : nth i A [] = fst (nth i rows ([], false)) ++ [snd (nth i rows ([], false))]).
    { unfold A. rewrite (nth_indep _ [] ((fun p => fst p ++ [snd p]) ([], false))) by (rewrite map_length; auto). apply (map_nth (fun p : list bool * bool => fst p ++ [snd p]) rows ([], false)). }
    assert (LR : length (fst (nth i rows ([], false))) = n) by (apply HL, nth_In; auto).
    cbn [xsum]. unfold ent. rewrite ER. f_equal.
    - apply xsum_ext. intros k Hk. rewrite app_nth1 by lia. unfold y'. destruct (Nat.eqb_spec k n); [lia|auto].
    - rewrite app_nth2 by lia. rewrite LR, Nat.sub_diag. unfold y'. rewrite Nat.eqb_refl. cbn. apply andb_true_r. }
  split.
  - intros S v (c & Hc). rewrite (xsum_ext _ _ (fun j => xsum (length rows) (fun i => c i && (ent A i j && y' j)))).
    + rewrite xsum_swap. apply xsum_0. intros i Hi. rewrite xsum_and_l, E by auto. rewrite (S _ (nth_In rows ([], false) Hi)), xorb_nilpotent. apply andb_false_r.
    + intros j Hj. rewrite (Hc j Hj). unfold comb. rewrite <- xsum_and_r. apply xsum_ext. intros. symmetry; apply andb_assoc.
  - intros H p Hp. apply (In_nth _ _ ([], false)) in Hp. destruct Hp as (i & Hi & <-).
    specialize (H (fun j => ent A i j)). rewrite E in H by auto. apply xorb_eq. apply H. exists (delta i). intros j _. symmetry. apply comb_delta; auto.
Qed.
Lemma gf2_correct vars fixed rows : NoDup vars -> (forall p, In p rows -> length (fst p) = length vars) ->
  (exists s y, gf2_solve vars fixed rows = Some s /\ sat (length vars) rows y /\
     forall v, mem v s = true <-> mem v fixed = true \/ exists j, j < length vars /\ nth j vars 0 = v /\ y j = true) \/
  (gf2_solve vars fixed rows = None /\ forall y, ~ sat (length vars) rows y).
Proof.
  intros NV HL. unfold gf2_solve. destruct rows as [|r0 rows0] eqn:ER.
  { left. exists fixed, (fun _ => false). split; auto. split; [intros p []|]. intros v. split; auto. intros [K|(j & _ & _ & K)]; auto; discriminate. }
  rewrite <- ER in *. clear ER r0 rows0. set (n := length vars) in *. set (m := length rows). set (A := map (fun p => fst p ++ [snd p]) rows).
  assert (SA : shaped m (S n) A).
  { split; [apply map_length|]. intros r Hr. apply in_map_iff in Hr. destruct Hr as (p & <- & Hp). rewrite app_length, (HL p Hp). cbn. lia. }
  assert (LE : n <= S n) by lia.
  destruct (elimination_spec false n m (S n) A SA LE) as [HR (pp & piv & HI)].
  unfold gauss_elimination. set (R := mdata (elimination false n (Mat m (S n) A))) in *.
  assert (SR : shaped m (S n) R) by (apply (rops_shaped m (S n) A); auto).
  assert (EC : echelon m n R) by (eapply inv_echelon; eauto).
  assert (SP : forall v, in_rowspace m (S n) A v <-> in_rowspace m (S n) R v) by (intros v; apply rops_space; auto).
  assert (RI : forall i, i < m -> in_rowspace m (S n) R (fun j => ent R i j)).
  { intros i Hi. exists (delta i). intros j _. symmetry. apply comb_delta; auto. }
  destruct (existsb (fun r => negb (any_row n r) && nth n r false) R) eqn:EX.
  - right. split; auto. intros y S. apply existsb_exists in EX. destruct EX as (r & Hr & K). apply andb_true_iff in K. destruct K as [K1 K2]. apply negb_true_iff in K1.
    apply (In_nth _ _ []) in Hr. destruct Hr as (i & Hi & E). rewrite (proj1 SR) in Hi.
    pose proof (proj1 (sat_space n rows y HL) S _ (proj2 (SP _) (RI i Hi))) as Q. cbn [xsum] in Q.
    rewrite xsum_0 in Q.
    + rewrite xorb_false_l, Nat.eqb_refl, andb_true_r in Q. unfold ent in Q. rewrite E in Q. congruence.
    + intros k Hk. replace (ent R i k) with false; auto. symmetry. unfold ent. rewrite E. rewrite any_row_false in K1. apply K1; auto.
  - left. set (L := map (firstn n) R). set (b := map (fun r => nth n r false) R).
    assert (SL : mat_ok (Mat m n L)).
    { unfold mat_ok; cbn [mrows mcols mdata]; split; [unfold L; rewrite map_length; apply SR|]. intros r Hr. apply in_map_iff in Hr. destruct Hr as (r' & <- & Hr). rewrite firstn_length, (proj2 SR r' Hr). lia. }
    assert (EL : forall i j, i < m -> j < n -> ent L i j = ent R i j).
    { intros i j Hi Hj. unfold ent, L. rewrite (nth_indep _ [] (firstn n [])) by (rewrite map_length, (proj1 SR); auto). rewrite map_nth. apply nth_firstn'; auto. }
    assert (EB : forall i, nth i b false = ent R i n).
    { intros i. unfold ent, b. destruct (Nat.lt_ge_cases i (length R)) as [Hi|Hi].
      - rewrite (nth_indep _ false ((fun r => nth n r false) [])) by (rewrite map_length; auto). apply (map_nth (fun r : list bool => nth n r false) R []).
      - rewrite (nth_overflow R []) by auto. rewrite nth_overflow by (rewrite map_length; auto). destruct n; auto. }
    assert (LB : length b = m) by (unfold b; rewrite map_length; apply SR).
    destruct (solve_correct_gen (Mat m n L) b SL LB) as [S1 S2]; cbn [mrows mcols mdata].
    { intros i i' j' Hi Hi' Hj E. rewrite EL in E by (auto; lia). destruct (EC i i' j' Hi Hi' Hj E) as (j & Hj' & L1 & L2). exists j. split; auto.
      split; [rewrite EL by lia; auto|]. intros k Hk. rewrite EL by lia. auto. }
    { intros i Hi Hz. rewrite EB. apply not_true_iff_false. intros K. apply not_true_iff_false in EX. apply EX, existsb_exists. exists (nth i R []). split; [apply nth_In; rewrite (proj1 SR); auto|].
      apply andb_true_iff. split; [|exact K]. apply negb_true_iff, any_row_false. intros k Hk. specialize (Hz k Hk). rewrite EL in Hz by auto. exact Hz. }
    cbn [mrows mcols mdata] in S1, S2. set (sol := solve_f2 (Mat m n L) b) in *.
    eexists _, (fun j => nth j sol false). split; [reflexivity|]. split.
    + apply sat_space; auto. intros v Hv. apply SP in Hv. destruct Hv as (c & Hc).
      rewrite (xsum_ext _ _ (fun j => xsum m (fun i => c i && (ent R i j && (if (j =? n)%nat then true else nth j sol false))))).
      * rewrite xsum_swap. apply xsum_0. intros i Hi. rewrite xsum_and_l. cbn [xsum]. rewrite (xsum_ext n _ (fun j => ent L i j && nth j sol false)).
        -- rewrite (S2 i Hi), EB, Nat.eqb_refl, andb_true_r, xorb_nilpotent. apply andb_false_r.
        -- intros k Hk. rewrite EL by auto. destruct (Nat.eqb_spec k n); [lia|auto].
      * intros j Hj. rewrite (Hc j Hj). unfold comb. rewrite <- xsum_and_r. apply xsum_ext. intros. symmetry; apply andb_assoc.
    + intros v. clearbody sol. unfold n in S1 |- *. clear - S1. revert sol S1 fixed. induction vars as [|w vars IH]; intros sol S1 fixed.
      * cbn. split; [auto|intros [K|(j & K & _)]; [auto|lia]].
      * destruct sol as [|x sol]; [discriminate|]. cbn [combine fold_left fst snd length nth] in *. injection S1 as S1. rewrite IH by auto. destruct x.
        -- rewrite mem_sadd, orb_true_iff, Nat.eqb_eq. split.
           ++ intros [[->|K]|(j & K1 & K2 & K3)]; [right; exists 0; repeat split; lia|auto|right; exists (S j); repeat split; auto; lia].
           ++ intros [K|([|j] & K1 & K2 & K3)]; [auto|auto|right; exists j; repeat split; auto; lia].
        -- split.
           ++ intros [K|(j & K1 & K2 & K3)]; [auto|right; exists (S j); repeat split; auto; lia].
           ++ intros [K|([|j] & K1 & K2 & K3)]; [auto|discriminate|right; exists j; repeat split; auto; lia].
Qed.

(** * The equations of one node *)
Lemma xsum_xorsum (f : nat -> bool) vars : xsum (length vars) (fun j => f (nth j vars 0)) = xorsum vars f.
Proof.
  induction vars as [|v vars IH] using rev_ind; auto. rewrite app_length, Nat.add_comm. cbn [length Nat.add xsum]. rewrite xorsum_app. cbn [xorsum fold_right]. rewrite xorb_false_r. f_equal.
  - rewrite <- IH. apply xsum_ext. intros k Hk. rewrite app_nth1; auto.
  - rewrite app_nth2, Nat.sub_diag by lia. auto.
Qed.
Lemma rmap_Ok {A B} (f : A -> res B) (g : A -> B) l : (forall a, In a l -> f a = Ok (g a)) -> rmap f l = Ok (map g l).
Proof. induction l as [|a l IH]; cbn; intros H; auto. rewrite H, IH by auto. auto. Qed.
Definition oddb (g : graph) (s : nset) (v : nat) : bool := xorsum (elems s) (fun u => mem v (nbh g u)).
Lemma oddb_spec g s v : oddb g s v = true <-> odd_nb g s v.
Proof. symmetry. apply odd_nb_spec. Qed.
Lemma nbh_sym g u v : mem u (nbh g v) = mem v (nbh g u).
Proof. apply eq_true_iff_eq. rewrite !mem_nbh. split; apply adjacent_sym. Qed.
Lemma const_oddb g s v : const_at (nbh g v) s = oddb g s v.
Proof.
  unfold const_at, oddb. rewrite (xorsum_ext _ _ (fun u => mem u (nbh g v))) by (intros; apply nbh_sym). rewrite xorsum_odd. f_equal. apply Permutation_length, NoDup_Permutation.
  - apply elems_NoDup.
  - apply NoDup_filter, elems_NoDup.
  - intros u. rewrite filter_In, !elems_spec, mem_sinter, andb_true_iff. tauto.
Qed.
(** the conditions of a Pauli flow on the correction set [s] of the node [i] *)
Record pauli_at (og : opengraph) (ls : list nset) (i : nat) (s : nset) : Prop := {
  pa_1 : forall j l, mem j s = true -> i <> j -> labelled og j l -> l <> LAxis AX -> l <> LAxis AY -> prec ls i j;
  pa_2 : forall j l, odd_nb (og_graph og) s j -> i <> j -> labelled og j l -> l <> LAxis AY -> l <> LAxis AZ -> prec ls i j;
  pa_3 : forall j, ~ prec ls i j -> i <> j -> labelled og j (LAxis AY) -> (mem j s = true <-> odd_nb (og_graph og) s j);
  pa_4 : labelled og i (LPlane PXY) -> mem i s = false /\ odd_nb (og_graph og) s i;
  pa_5 : labelled og i (LPlane PXZ) -> mem i s = true /\ odd_nb (og_graph og) s i;
  pa_6 : labelled og i (LPlane PYZ) -> mem i s = true /\ ~ odd_nb (og_graph og) s i;
  pa_7 : labelled og i (LAxis AX) -> odd_nb (og_graph og) s i;
  pa_8 : labelled og i (LAxis AZ) -> mem i s = true;
  pa_9 : labelled og i (LAxis AY) -> (mem i s = true /\ ~ odd_nb (og_graph og) s i) \/ (mem i s = false /\ odd_nb (og_graph og) s i) }.
Lemma pauli_flow_at og cf ls : pauli_flow og cf ls <-> order_ok og ls /\ corrf_ok og cf /\ forall i s, dget cf i = Some s -> pauli_at og ls i s.
Proof.
  split.
  - intros [A B P1 P2 P3 P4 P5 P6 P7 P8 P9]. split; auto. split; auto. intros i s Hs. constructor; eauto.
  - intros (A & B & H). constructor; auto; intros i s; intros; destruct (H i s) as [P1 P2 P3 P4 P5 P6 P7 P8 P9]; auto; eauto.
Qed.
(** the corrections of the node [i] are the part of [s] and Odd(s) that comes after [i] *)
Definition corr_at (xz : xzcorr) (i : nat) (s : nset) : Prop := forall v,
  (mem v (dgets (xz_x xz) i) = true <-> mem v s = true /\ prec (xz_layers xz) i v) /\
  (mem v (dgets (xz_z xz) i) = true <-> odd_nb (og_graph (xz_og xz)) s v /\ prec (xz_layers xz) i v).

Section Node.
Context (it : iter) (Hit : iter_ok it) (xz : xzcorr).
Notation og := (xz_og xz).
Notation g := (og_graph (xz_og xz)).
Notation ls := (xz_layers xz).
Hypotheses (Hog : og_ok og) (Ho : order_ok og ls) (CO : xz_respects xz).
Context (i : nat) (lab : label) (F : nset).
Hypotheses (Hi : label_at og i = Some lab) (HF : forall v, mem v F = true <-> prec ls i v).
Let x := dgets (xz_x xz) i.
Let z := dgets (xz_z xz) i.
Let others := sremove i (sdiff (og_nodes og) F).
Let non_inputs := sdiff (og_nodes og) (of_list (og_in og)).
Let vars := filter (fun a => mem a non_inputs && match label_at og a with Some l => lab_in_XY l | None => false end) (it (sunion others (sing i))).
Let fixed := if self_in lab then sadd i x else x.
Lemma prec_irr u : ~ prec ls u u.
Proof. apply (prec_irrefl xz Ho). Qed.
Lemma prec_nd u v : prec ls u v -> In v (g_nodes g).
Proof. apply (prec_node xz Ho). Qed.
Lemma label_lab v l : label_at og v = Some l <-> labelled og v l.
Proof.
  unfold label_at, labelled. destruct (dget (og_meas og) v) as [m|]; cbn; split.
  - intros [= <-]. eauto. - intros (m' & [= <-] & <-). auto. - discriminate. - intros (m' & K & _). discriminate.
Qed.
Lemma label_node v l : label_at og v = Some l -> In v (g_nodes g).
Proof.
  unfold label_at. destruct (dget (og_meas og) v) as [m|] eqn:E; [|discriminate]. intros _. apply (proj2 (ok_meas _ Hog) v). apply dget_In in E. apply (in_map fst _ _ E).
Qed.
Lemma i_node : In i (g_nodes g). Proof. eapply label_node; eauto. Qed.
Lemma i_meas : In i (dkeys (og_meas og)).
Proof. unfold label_at in Hi. destruct (dget (og_meas og) i) as [m|] eqn:Q; [|discriminate]. apply dget_is_key in Q. auto. Qed.
Lemma mem_nodes v : mem v (og_nodes og) = true <-> In v (g_nodes g).
Proof. apply mem_of_list. Qed.
Lemma others_spec v : mem v others = true <-> In v (g_nodes g) /\ ~ prec ls i v /\ v <> i.
Proof.
  unfold others. rewrite mem_sremove, mem_sdiff, !andb_true_iff, !negb_true_iff, mem_nodes, Nat.eqb_neq, <- not_true_iff_false, HF. tauto.
Qed.
(** nodes that do not come after [i] are measured *)
Lemma others_lab v : In v (g_nodes g) -> ~ prec ls i v -> exists l, label_at og v = Some l.
Proof.
  intros Hv HN. unfold label_at. destruct (dget (og_meas og) v) as [m|] eqn:E; [cbn; eauto|]. exfalso. apply HN.
  assert (Ov : In v (og_out og)).
  { destruct (in_dec Nat.eq_dec v (og_out og)); auto. exfalso. assert (K : In v (dkeys (og_meas og))) by (apply (proj2 (ok_meas _ Hog)); auto).
    apply dget_keys in K. destruct K as [m K]. congruence. }
  assert (NE : og_out og <> []) by (intros K; rewrite K in Ov; destruct Ov).
  destruct (proj1 (ord_cover _ _ Ho i) i_node) as (k & Hk). exists k, 0. split; auto. split; [apply (ord_first _ _ Ho NE); auto|].
  destruct k; [|lia]. exfalso. apply (ord_first _ _ Ho NE) in Hk. unfold label_at in Hi. destruct (dget (og_meas og) i) as [m|] eqn:Q; [|discriminate].
  apply dget_In, (in_map fst) in Q. apply (proj2 (ok_meas _ Hog)) in Q. tauto.
Qed.
Lemma vars_spec v : In v vars <-> In v (g_nodes g) /\ ~ In v (og_in og) /\ ~ prec ls i v /\ exists l, label_at og v = Some l /\ lab_in_XY l = true.
Proof.
  unfold vars. rewrite filter_In, iter_In by auto. rewrite mem_sunion, orb_true_iff, others_spec, mem_sing, Nat.eqb_eq, andb_true_iff. unfold non_inputs.
  rewrite mem_sdiff, andb_true_iff, negb_true_iff, <- not_true_iff_false, mem_nodes, mem_of_list. split.
  - intros [A [[B1 B2] C]]. split; auto. split; auto. split; [destruct A as [A| ->]; [tauto|apply prec_irr]|]. destruct (label_at og v) as [l|]; [eauto|discriminate].
  - intros (A & B & C & l & D & E). rewrite D. split; [|auto]. destruct (Nat.eq_dec v i); auto.
Qed.
Lemma vars_NoDup : NoDup vars.
Proof. apply NoDup_filter, iter_NoDup; auto. Qed.
Lemma fixed_spec v : mem v fixed = true <-> mem v x = true \/ (self_in lab = true /\ v = i).
Proof.
  unfold fixed. destruct (self_in lab).
  - rewrite mem_sadd, orb_true_iff, Nat.eqb_eq. tauto.
  - split; [auto|intros [K|[K _]]; [auto|discriminate]].
Qed.
Lemma x_prec v : mem v x = true -> prec ls i v.
Proof. intros H. apply CO; auto. apply i_meas. Qed.
Lemma z_prec v : mem v z = true -> prec ls i v.
Proof. intros H. apply CO; auto. apply i_meas. Qed.
Lemma vars_fixed v : In v vars -> mem v fixed = false.
Proof.
  intros H. apply vars_spec in H. destruct H as (_ & _ & NP & l & L & XY). apply not_true_iff_false. rewrite fixed_spec. intros [K|[K ->]]; [apply NP, x_prec; auto|].
  rewrite Hi in L. injection L as <-. destruct lab as [[| |]|[| |]]; discriminate.
Qed.
(** sets made of the pinned nodes and of candidates *)
Definition form (s : nset) : Prop := (forall v, mem v fixed = true -> mem v s = true) /\ forall v, mem v s = true -> mem v fixed = true \/ In v vars.
Lemma form_odd s v : form s -> oddb g s v = xorb (oddb g fixed v) (xorsum vars (fun u => mem u (nbh g v) && mem u s)).
Proof.
  intros [F1 F2]. unfold oddb. rewrite (xorsum_perm (elems s) (elems fixed ++ filter (fun u => mem u s) vars)).
  - rewrite xorsum_app, xorsum_filter. f_equal. apply xorsum_ext. intros u _. rewrite (nbh_sym g v u). apply andb_comm.
  - apply NoDup_Permutation; [apply elems_NoDup| |].
    + apply NoDup_app; [apply elems_NoDup|apply NoDup_filter, vars_NoDup|]. intros u A B. apply elems_spec in A. apply filter_In in B. destruct B as [B _]. apply vars_fixed in B. congruence.
    + intros u. rewrite in_app_iff, filter_In, !elems_spec. split; [intros K; destruct (F2 u K); auto|]. intros [K|[_ K]]; auto.
Qed.
Lemma row_plain s v c : form s -> (xorsum vars (fun u => mem u (nbh g v) && mem u s) = xorb c (oddb g fixed v) <-> oddb g s v = c).
Proof. intros H. rewrite (form_odd s v H). destruct (oddb g fixed v), (xorsum _ _), c; cbn; intuition congruence. Qed.
Lemma row_flipped s v c : form s -> ~ prec ls i v -> label_at og v = Some (LAxis AY) ->
  (xorsum vars (fun u => xorb (mem u (nbh g v)) (u =? v)%nat && mem u s) = xorb c (oddb g fixed v) <-> xorb (oddb g s v) (mem v s) = c).
Proof.
  intros H NP L. rewrite (form_odd s v H).
  assert (E : xorsum vars (fun u => xorb (mem u (nbh g v)) (u =? v)%nat && mem u s) = xorb (xorsum vars (fun u => mem u (nbh g v) && mem u s)) (mem v s)).
  { rewrite (xorsum_ext vars _ (fun u => xorb (mem u (nbh g v) && mem u s) ((u =? v)%nat && mem u s))).
    - rewrite xorsum_xorb. f_equal. rewrite (xorsum_ext vars _ (fun u => mem v s && (u =? v)%nat)).
      + rewrite xorsum_andl, xorsum_eqb by apply vars_NoDup. destruct (mem v s) eqn:M; auto. cbn [andb]. apply lmem_In. destruct (proj2 H v M) as [K|K]; auto. exfalso.
        apply fixed_spec in K. destruct K as [K|[K ->]]; [apply NP, x_prec; auto|]. rewrite Hi in L. injection L as E0. rewrite E0 in K. discriminate.
      + intros u _. destruct (Nat.eqb_spec u v) as [->|]; [destruct (mem v s); auto|]. cbn [andb]. symmetry; apply andb_false_r.
    - intros u _. destruct (mem u (nbh g v)), (u =? v)%nat, (mem u s); auto. }
  rewrite E. generalize (xorsum vars (fun u => mem u (nbh g v) && mem u s)) (oddb g fixed v) (mem v s). intros [] [] []; destruct c; cbn; intuition congruence.
Qed.
(** the equations, as conditions on the set *)
Definition conds (s : nset) : Prop :=
  (forall v, prec ls i v -> oddb g s v = mem v z) /\
  (forall v l, In v (g_nodes g) -> ~ prec ls i v -> v <> i -> label_at og v = Some l ->
     match l with LAxis AZ => True | LAxis AY => xorb (oddb g s v) (mem v s) = false | _ => oddb g s v = false end) /\
  match lab with LAxis AY => xorb (oddb g s i) (mem i s) = true | LAxis AZ => True | LPlane PYZ => oddb g s i = false | _ => oddb g s i = true end.
Definition lab_of v : label := match label_at og v with Some l => l | None => LAxis AZ end.
Definition rowsf : list (list bool * bool) :=
  map (fun v => (row_at (nbh g v) vars, xorb (mem v z) (const_at (nbh g v) fixed))) (it F) ++
  concat (map (fun v => match lab_of v with LAxis AZ => [] | LAxis AY => [(row_flip (nbh g v) v vars, const_at (nbh g v) fixed)] | _ => [(row_at (nbh g v) vars, const_at (nbh g v) fixed)] end) (it others)) ++
  match lab with
  | LAxis AY => [(row_flip (nbh g i) i vars, xorb true (const_at (nbh g i) fixed))]
  | LAxis AZ => []
  | LPlane PYZ => [(row_at (nbh g i) vars, xorb false (const_at (nbh g i) fixed))]
  | _ => [(row_at (nbh g i) vars, xorb true (const_at (nbh g i) fixed))]
  end.
Lemma adj_ok v : In v (g_nodes g) -> adj_at og v = Ok (nbh g v).
Proof. intros H. unfold adj_at. rewrite (proj2 (mem_nodes v) H). auto. Qed.
Lemma pc_solve_eq : pc_solve it xz i F = if self_in lab && negb (mem i non_inputs) then Ok None else Ok (gf2_solve vars fixed rowsf).
Proof.
  unfold pc_solve. rewrite Hi. cbn [of_opt rbind]. fold non_inputs. destruct (self_in lab && negb (mem i non_inputs)); auto. fold others x z. fold vars. fold fixed.
  rewrite (rmap_Ok _ (fun v => (row_at (nbh g v) vars, xorb (mem v z) (const_at (nbh g v) fixed)))).
  2:{ intros v Hv. apply iter_In in Hv; auto. apply HF in Hv. rewrite adj_ok by (eapply prec_nd; eauto). auto. }
  cbn [rbind]. rewrite (rmap_Ok _ (fun v => match lab_of v with LAxis AZ => [] | LAxis AY => [(row_flip (nbh g v) v vars, const_at (nbh g v) fixed)] | _ => [(row_at (nbh g v) vars, const_at (nbh g v) fixed)] end)).
  2:{ intros v Hv. apply iter_In in Hv; auto. apply others_spec in Hv. destruct Hv as (A & B & _). destruct (others_lab v A B) as (l & L). unfold lab_of. rewrite L. cbn [of_opt rbind]. rewrite adj_ok by auto. auto. }
  cbn [rbind]. rewrite (adj_ok i i_node). cbn [rbind]. reflexivity.
Qed.
Lemma rows_len p : In p rowsf -> length (fst p) = length vars.
Proof.
  unfold rowsf. rewrite !in_app_iff. intros [K|[K|K]].
  - apply in_map_iff in K. destruct K as (v & <- & _). apply map_length.
  - apply in_concat in K. destruct K as (l & K1 & K2). apply in_map_iff in K1. destruct K1 as (v & <- & _). destruct (lab_of v) as [[| |]|[| |]]; cbn in K2; try tauto; destruct K2 as [<-|[]]; apply map_length.
  - destruct lab as [[| |]|[| |]]; cbn in K; try tauto; destruct K as [<-|[]]; apply map_length.
Qed.
Lemma row_sum (f : nat -> bool) s : xsum (length vars) (fun j => nth j (map f vars) false && mem (nth j vars 0) s) = xorsum vars (fun u => f u && mem u s).
Proof.
  rewrite <- (xsum_xorsum (fun u => f u && mem u s)). apply xsum_ext. intros k Hk. f_equal.
  rewrite (nth_indep _ false (f 0)) by (rewrite map_length; auto). apply (map_nth f).
Qed.
Lemma rows_conds s : form s -> sat (length vars) rowsf (fun j => mem (nth j vars 0) s) <-> conds s.
Proof.
  intros Fm.
  assert (R1 : forall v c, xsum (length vars) (fun j => nth j (row_at (nbh g v) vars) false && mem (nth j vars 0) s) = xorb c (const_at (nbh g v) fixed) <-> oddb g s v = c).
  { intros v c. unfold row_at. rewrite row_sum, const_oddb. apply row_plain; auto. }
  assert (R2 : forall v c, ~ prec ls i v -> label_at og v = Some (LAxis AY) ->
     (xsum (length vars) (fun j => nth j (row_flip (nbh g v) v vars) false && mem (nth j vars 0) s) = xorb c (const_at (nbh g v) fixed) <-> xorb (oddb g s v) (mem v s) = c)).
  { intros v c NP L. unfold row_flip. rewrite row_sum, const_oddb. apply row_flipped; auto. }
  unfold sat, rowsf. split.
  - intros S. split; [|split].
    + intros v Hv. apply (R1 v (mem v z)). apply (S (row_at (nbh g v) vars, _)). apply in_or_app. left. apply in_map_iff. exists v. split; auto. apply iter_In; auto. apply HF; auto.
    + intros v l Hv NP NE L. assert (Ov : In v (it others)) by (apply iter_In; auto; apply others_spec; auto).
      assert (G : forall p, In p (match lab_of v with LAxis AZ => [] | LAxis AY => [(row_flip (nbh g v) v vars, const_at (nbh g v) fixed)] | _ => [(row_at (nbh g v) vars, const_at (nbh g v) fixed)] end) ->
         xsum (length vars) (fun j => nth j (fst p) false && mem (nth j vars 0) s) = snd p).
      { intros p Hp. apply S. apply in_or_app. right. apply in_or_app. left. apply in_concat. eexists. split; [apply in_map_iff; exists v; split; [reflexivity|auto]|auto]. }
      unfold lab_of in G. rewrite L in G.
      destruct l as [pl|[| |]]; auto; [apply (R1 v false); rewrite xorb_false_l; apply (G (_, _)); left; auto|apply (R1 v false); rewrite xorb_false_l; apply (G (_, _)); left; auto|].
      apply (R2 v false NP L). rewrite xorb_false_l. apply (G (_, _)). left; auto.
    + assert (G : forall p, In p (match lab with LAxis AY => [(row_flip (nbh g i) i vars, xorb true (const_at (nbh g i) fixed))] | LAxis AZ => [] | LPlane PYZ => [(row_at (nbh g i) vars, xorb false (const_at (nbh g i) fixed))] | _ => [(row_at (nbh g i) vars, xorb true (const_at (nbh g i) fixed))] end) ->
         xsum (length vars) (fun j => nth j (fst p) false && mem (nth j vars 0) s) = snd p).
      { intros p Hp. apply S. apply in_or_app. right. apply in_or_app. auto. }
      clear S. pose proof Hi as Hi'. assert (EL : exists l, lab = l) by eauto. destruct EL as [l EL]. rewrite EL in *. destruct l as [[| |]|[| |]]; auto; try (apply R1; apply (G (_, _)); left; reflexivity). apply R2; auto; [apply prec_irr|]. apply (G (_, _)); left; reflexivity.
  - intros (C1 & C2 & C3) p Hp. rewrite !in_app_iff in Hp. destruct Hp as [K|[K|K]].
    + apply in_map_iff in K. destruct K as (v & <- & K). apply iter_In in K; auto. apply HF in K. cbn [fst snd]. apply R1, C1; auto.
    + apply in_concat in K. destruct K as (l & K1 & K2). apply in_map_iff in K1. destruct K1 as (v & <- & K). apply iter_In in K; auto. apply others_spec in K. destruct K as (A & B & C).
      destruct (others_lab v A B) as (l & L). pose proof (C2 v l A B C L) as Q. unfold lab_of in K2. rewrite L in K2.
      destruct l as [[| |]|[| |]]; cbn [In] in K2; try (exfalso; exact K2); destruct K2 as [<-|[]]; cbn [fst snd]; rewrite <- (xorb_false_l (const_at _ _)); try (apply R1; auto; fail). apply R2; auto.
    + pose proof Hi as Hi'. assert (EL : exists l, lab = l) by eauto. destruct EL as [l EL]. rewrite EL in *. destruct l as [[| |]|[| |]]; cbn [In] in K; try (exfalso; exact K); destruct K as [<-|[]]; cbn [fst snd]; try (apply R1; auto; fail). apply R2; auto. apply prec_irr.
Qed.
Lemma labi l : labelled og i l <-> lab = l.
Proof. rewrite <- label_lab, Hi. split; [intros [= <-]; auto|intros ->; auto]. Qed.
Lemma prec_decF v : prec ls i v \/ ~ prec ls i v.
Proof. rewrite <- HF. destruct (mem v F); auto. Qed.
Lemma conds_sound s : form s -> conds s ->
  (forall v, mem v s = true -> (In v (g_nodes g) /\ ~ In v (og_in og)) \/ mem v x = true \/ (self_in lab = true /\ v = i)) /\ corr_at xz i s /\ pauli_at og ls i s.
Proof.
  intros [F1 F2] (C1 & C2 & C3).
  assert (NI : lab_in_XY lab = false -> self_in lab = false -> mem i s = false).
  { intros K1 K2. apply not_true_iff_false. intros M. apply F2 in M. destruct M as [M|M].
    - apply fixed_spec in M. destruct M as [M|[M _]]; [apply (prec_irr i), x_prec; auto|congruence].
    - apply vars_spec in M. destruct M as (_ & _ & _ & l & L & Q). rewrite Hi in L. injection L as E0. congruence. }
  assert (SI : self_in lab = true -> mem i s = true) by (intros K; apply F1, fixed_spec; auto).
  split; [|split].
  - intros v Hv. apply F2 in Hv. destruct Hv as [Hv|Hv]; [apply fixed_spec in Hv; tauto|apply vars_spec in Hv; tauto].
  - intros v. split; split.
    + intros K. split; [apply F1, fixed_spec; auto|apply x_prec; auto].
    + intros [K P]. apply F2 in K. destruct K as [K|K]; [|apply vars_spec in K; tauto]. apply fixed_spec in K. destruct K as [K|[_ ->]]; auto. exfalso; exact (prec_irr i P).
    + intros K. pose proof (z_prec v K) as P. split; auto. apply oddb_spec. rewrite C1; auto.
    + intros [K P]. apply oddb_spec in K. rewrite C1 in K; auto.
  - constructor.
    + intros j l M NE L N1 N2. apply F2 in M. destruct M as [M|M].
      * apply fixed_spec in M. destruct M as [M|[_ ->]]; [apply x_prec; auto|congruence].
      * apply vars_spec in M. destruct M as (_ & _ & _ & l' & L' & Q). apply label_lab in L. rewrite L in L'. injection L' as E0. rewrite <- E0 in Q. destruct l as [|[| |]]; try discriminate; congruence.
    + intros j l O NE L N1 N2. destruct (prec_decF j) as [P|P]; auto. exfalso. apply label_lab in L. pose proof (C2 j l (label_node j l L) P (not_eq_sym NE) L) as Q. apply oddb_spec in O.
      destruct l as [|[| |]]; congruence.
    + intros j NP NE L. apply label_lab in L. pose proof (C2 j _ (label_node j _ L) NP (not_eq_sym NE) L) as Q. cbn in Q. rewrite <- oddb_spec. destruct (oddb g s j), (mem j s); cbn in Q; intuition congruence.
    + intros L. apply labi in L. rewrite L in C3, NI. cbn in C3. split; [apply NI; auto|apply oddb_spec; auto].
    + intros L. apply labi in L. rewrite L in C3, SI. cbn in C3. split; [apply SI; auto|apply oddb_spec; auto].
    + intros L. apply labi in L. rewrite L in C3, SI. cbn in C3. split; [apply SI; auto|rewrite <- oddb_spec; congruence].
    + intros L. apply labi in L. rewrite L in C3. cbn in C3. apply oddb_spec; auto.
    + intros L. apply labi in L. rewrite L in SI. apply SI; auto.
    + intros L. apply labi in L. rewrite L in C3. cbn in C3. rewrite <- oddb_spec. destruct (oddb g s i), (mem i s); cbn in C3; intuition congruence.
Qed.
Lemma conds_complete s : (forall v, mem v s = true -> In v (g_nodes g) /\ ~ In v (og_in og)) -> corr_at xz i s -> pauli_at og ls i s ->
  (self_in lab = true -> mem i non_inputs = true) /\ form s /\ conds s.
Proof.
  intros HN CA [P1 P2 P3 P4 P5 P6 P7 P8 P9].
  assert (SI : self_in lab = true -> mem i s = true).
  { intros K. assert (EL : exists l, lab = l) by eauto. destruct EL as [l EL]. rewrite EL in K. pose proof (proj2 (labi l) EL) as L. destruct l as [[| |]|[| |]]; try discriminate; tauto. }
  assert (NI : lab = LPlane PXY -> mem i s = false) by (intros K; apply P4, labi; auto).
  split; [|split].
  - intros K. apply SI, HN in K. unfold non_inputs. rewrite mem_sdiff, andb_true_iff, negb_true_iff, <- not_true_iff_false, mem_nodes, mem_of_list. auto.
  - split.
    + intros v Hv. apply fixed_spec in Hv. destruct Hv as [Hv|[Hv ->]]; auto. apply (CA v); auto.
    + intros v Hv. destruct (prec_decF v) as [P|P]; [left; apply fixed_spec; left; apply (CA v); auto|].
      destruct (HN v Hv) as [N1 N2]. destruct (others_lab v N1 P) as (l & L). destruct (Nat.eq_dec v i) as [E|E].
      * subst v. rewrite Hi in L. injection L as EL. assert (SC : self_in lab = true \/ self_in lab = false) by (destruct (self_in lab); auto). destruct SC as [S|S]; [left; apply fixed_spec; auto|]. right. apply vars_spec. split; auto. split; auto. split; auto. exists l. rewrite Hi. split; [congruence|].
        rewrite <- EL. assert (EL' : exists l, lab = l) by eauto. destruct EL' as [l' EL']. rewrite EL' in *. destruct l' as [[| |]|[| |]]; try discriminate; auto. exfalso. rewrite (NI eq_refl) in Hv. discriminate.
      * right. apply vars_spec. split; auto. split; auto. split; auto. exists l. split; auto. destruct l as [pl|[| |]]; auto; exfalso; apply P; apply (P1 v _ Hv (not_eq_sym E) (proj1 (label_lab v _) L)); discriminate.
  - split; [|split].
    + intros v P. apply eq_true_iff_eq. rewrite oddb_spec. split; [intros O; apply (CA v); auto|intros K; apply (CA v) in K; tauto].
    + intros v l Hv NP NE L. apply label_lab in L.
      assert (O : l <> LAxis AY -> l <> LAxis AZ -> oddb g s v = false).
      { intros N1 N2. apply not_true_iff_false. rewrite oddb_spec. intros O. apply NP. eapply (P2 v l); eauto. }
      destruct l as [pl|[| |]]; auto; try (apply O; discriminate). pose proof (P3 v NP (not_eq_sym NE) L) as Q. rewrite <- oddb_spec in Q. destruct (oddb g s v), (mem v s); cbn; intuition congruence.
    + assert (EL : exists l, lab = l) by eauto. destruct EL as [l EL]. pose proof (proj2 (labi l) EL) as L. rewrite EL. clear SI NI. destruct l as [[| |]|[| |]]; auto.
      * apply oddb_spec, P4; auto. * apply not_true_iff_false. rewrite oddb_spec. apply P6; auto. * apply oddb_spec, P5; auto. * apply oddb_spec, P7; auto.
      * destruct (P9 L) as [[M O]|[M O]]; rewrite M; rewrite <- oddb_spec in O; destruct (oddb g s i); cbn; congruence.
Qed.
(** _solve_pauli_correction_set returns a correction set compatible with the
    corrections if there is one.  (Inputs can only be in it if an X-correction
    targets them.) *)
Lemma pc_solve_spec :
  (exists s, pc_solve it xz i F = Ok (Some s) /\ (forall v, mem v s = true -> In v (g_nodes g) /\ (~ In v (og_in og) \/ mem v x = true)) /\ corr_at xz i s /\ pauli_at og ls i s) \/
  (pc_solve it xz i F = Ok None /\ forall s, (forall v, mem v s = true -> In v (g_nodes g) /\ ~ In v (og_in og)) -> corr_at xz i s -> ~ pauli_at og ls i s).
Proof.
  rewrite pc_solve_eq. destruct (self_in lab && negb (mem i non_inputs)) eqn:SF.
  - right. split; auto. intros s HN CA PA. destruct (conds_complete s HN CA PA) as (K & _). apply andb_true_iff in SF. destruct SF as [S1 S2]. rewrite (K S1) in S2. discriminate.
  - destruct (gf2_correct vars fixed rowsf vars_NoDup rows_len) as [(s & y & -> & ST & MS)|[-> NS]].
    + left. exists s. split; auto.
      assert (Fm : form s).
      { split; [intros v K; apply MS; auto|]. intros v K. apply MS in K. destruct K as [K|(j & K1 & <- & _)]; auto. right. apply nth_In; auto. }
      assert (EY : forall j, j < length vars -> y j = mem (nth j vars 0) s).
      { intros j Hj. apply eq_true_iff_eq. rewrite MS. split; [intros K; right; exists j; auto|]. intros [K|(k & K1 & K2 & K3)].
        - rewrite vars_fixed in K by (apply nth_In; auto). discriminate.
        - replace j with k; auto. apply (proj1 (NoDup_nth vars 0) vars_NoDup k j); auto. }
      assert (ST' : sat (length vars) rowsf (fun j => mem (nth j vars 0) s)).
      { intros p Hp. rewrite <- (ST p Hp). apply xsum_ext. intros k Hk. rewrite EY; auto. }
      apply rows_conds in ST'; auto. destruct (conds_sound s Fm ST') as (A & B & D). split; auto. intros v Hv. destruct (A v Hv) as [[K1 K2]|[K|[K ->]]]; auto.
      * split; auto. eapply prec_nd, x_prec; eauto.
      * rewrite K in SF. cbn [andb] in SF. apply negb_false_iff in SF. unfold non_inputs in SF. rewrite mem_sdiff, andb_true_iff, negb_true_iff, <- not_true_iff_false, mem_nodes, mem_of_list in SF. tauto.
    + right. split; auto. intros s HN CA PA. destruct (conds_complete s HN CA PA) as (_ & Fm & C). apply (NS (fun j => mem (nth j vars 0) s)). apply rows_conds; auto.
Qed.
End Node.

(** * All nodes *)
Lemma fold_dset it (Hit : iter_ok it) l (acc : nset) : forall d n, dget (fold_left (fun d n => dset d n acc) l d) n = if lmem n l then Some acc else dget d n.
Proof.
  induction l as [|k l IH]; intros d n; auto. cbn [fold_left]. rewrite IH, dget_dset. unfold lmem. cbn [existsb]. fold (lmem n l). rewrite (Nat.eqb_sym k n).
  destruct (n =? k)%nat; cbn [orb]; destruct (lmem n l); auto.
Qed.
Lemma in_layer_cons l ls k n : in_layer (l :: ls) k n <-> (k = 0 /\ mem n l = true) \/ exists k', k = S k' /\ in_layer ls k' n.
Proof.
  unfold in_layer. destruct k as [|k]; cbn [nth_error]; split.
  - intros (l' & [= <-] & H). auto.
  - intros [[_ H]|(k' & K & _)]; [eauto|discriminate].
  - intros H. right. eauto.
  - intros [[K _]|(k' & [= <-] & H)]; [discriminate|auto].
Qed.
Lemma future_gen it (Hit : iter_ok it) : forall ls d acc, (forall i j n, in_layer ls i n -> in_layer ls j n -> i = j) ->
  let r := fold_left (fun (st : dict nset * nset) l => (fold_left (fun d n => dset d n (snd st)) (it l) (fst st), sunion (snd st) l)) ls (d, acc) in
  (forall n, (forall k, ~ in_layer ls k n) -> dget (fst r) n = dget d n) /\
  (forall k n, in_layer ls k n -> exists F, dget (fst r) n = Some F /\ forall v, mem v F = true <-> mem v acc = true \/ exists j, in_layer ls j v /\ j < k).
Proof.
  induction ls as [|l ls IH]; intros d acc HD; cbn [fold_left].
  - split; auto. intros k n (l & K & _). destruct k; discriminate.
  - destruct (IH (fold_left (fun d n => dset d n acc) (it l) d) (sunion acc l)) as [A B].
    { intros i j n K1 K2. assert (S i = S j) by (apply (HD (S i) (S j) n); apply in_layer_cons; right; eauto). lia. }
    cbn [fst snd]. split.
    + intros n Hn. rewrite A by (intros k K; apply (Hn (S k)); apply in_layer_cons; right; eauto). rewrite fold_dset with (it := it) by auto.
      replace (lmem n (it l)) with false; auto. symmetry. apply not_true_iff_false. rewrite lmem_In, iter_In by auto. intros K. apply (Hn 0). apply in_layer_cons; auto.
    + intros k n Hn. apply in_layer_cons in Hn. destruct Hn as [[-> Hn]|(k' & -> & Hn)].
      * exists acc. rewrite A.
        -- rewrite fold_dset with (it := it) by auto. replace (lmem n (it l)) with true by (symmetry; rewrite lmem_In, iter_In; auto). split; auto. intros v. split; [auto|intros [K|(j & _ & K)]; [auto|lia]].
        -- intros k K. assert (0 = S k) by (apply (HD 0 (S k) n); apply in_layer_cons; eauto). discriminate.
      * destruct (B k' n Hn) as (F & E & M). exists F. split; auto. intros v. rewrite M, mem_sunion, orb_true_iff. split.
        -- intros [[K|K]|(j & K & K')]; [auto|right; exists 0; rewrite in_layer_cons; split; [auto|lia]|right; exists (S j); rewrite in_layer_cons; split; [eauto|lia]].
        -- intros [K|(j & K & K')]; auto. apply in_layer_cons in K. destruct K as [[-> K]|(j' & -> & K)]; auto. right. exists j'. split; auto. lia.
Qed.
Lemma future_spec it og ls n : iter_ok it -> order_ok og ls -> In n (g_nodes (og_graph og)) ->
  exists F, dget (future_of it ls) n = Some F /\ forall v, mem v F = true <-> prec ls n v.
Proof.
  intros Hit Ho Hn. apply (ord_cover _ _ Ho) in Hn. destruct Hn as (k & Hk).
  destruct (future_gen it Hit ls [] sempty (ord_disj _ _ Ho)) as [_ B]. destruct (B k n Hk) as (F & E & M). exists F. split; auto. intros v. rewrite M, mem_empty. unfold prec. split.
  - intros [K|(j & K & K')]; [discriminate|]. exists k, j. auto.
  - intros (i & j & K1 & K2 & K3). right. exists j. split; auto. rewrite (ord_disj _ _ Ho k i n); auto.
Qed.
Section All.
Context (it : iter) (Hit : iter_ok it) (xz : xzcorr).
Notation og := (xz_og xz).
Notation ls := (xz_layers xz).
Hypotheses (Hog : og_ok og) (Ho : order_ok og ls) (CO : xz_respects xz).
Definition good_at (i : nat) (s : nset) : Prop :=
  (forall v, mem v s = true -> In v (g_nodes (og_graph og)) /\ (~ In v (og_in og) \/ mem v (dgets (xz_x xz) i) = true)) /\ corr_at xz i s /\ pauli_at og ls i s.
Lemma reconstruct_spec :
  (exists cf, reconstruct it xz = Ok cf /\ NoDup (dkeys cf) /\ (forall i, In i (dkeys cf) <-> In i (dkeys (og_meas og))) /\ forall i s, dget cf i = Some s -> good_at i s) \/
  (reconstruct it xz = Err EFlow /\ exists i, In i (dkeys (og_meas og)) /\
     forall s, (forall v, mem v s = true -> In v (g_nodes (og_graph og)) /\ ~ In v (og_in og)) -> corr_at xz i s -> ~ pauli_at og ls i s).
Proof.
  unfold reconstruct. set (step := fun (d : dict nset) (p : nat * measurement) => _).
  assert (G : forall l d, (forall p, In p l -> In p (og_meas og)) -> NoDup (map fst l) -> (forall k, In k (dkeys d) -> ~ In k (map fst l)) -> NoDup (dkeys d) -> (forall i s, dget d i = Some s -> good_at i s) ->
    (exists cf, rfold step l d = Ok cf /\ NoDup (dkeys cf) /\ (forall i, In i (dkeys cf) <-> In i (dkeys d) \/ In i (map fst l)) /\ forall i s, dget cf i = Some s -> good_at i s) \/
    (rfold step l d = Err EFlow /\ exists i, In i (dkeys (og_meas og)) /\
     forall s, (forall v, mem v s = true -> In v (g_nodes (og_graph og)) /\ ~ In v (og_in og)) -> corr_at xz i s -> ~ pauli_at og ls i s)).
  { induction l as [|[i m] l IH]; intros d HL ND DJ NK HG; cbn [rfold].
    - left. exists d. split; auto. split; auto. split; auto. intros i. cbn. tauto.
    - cbn [map fst] in ND. inversion ND as [|? ? N1 N2]; subst. assert (Hm : In (i, m) (og_meas og)) by (apply HL; left; auto).
      assert (Lm : label_at og i = Some (mlabel m)) by (unfold label_at; rewrite (In_dget _ _ _ (proj1 (ok_meas _ Hog)) Hm); auto).
      destruct (future_spec it og ls i Hit Ho) as (F & EF & MF); [apply (proj2 (ok_meas _ Hog)), (in_map fst _ _ Hm)|].
      assert (ES : step d (i, m) = (do s <- pc_solve it xz i F; match s with Some s => Ok (dset d i s) | None => Err EFlow end)).
      { unfold step. cbn [fst]. rewrite EF. reflexivity. }
      rewrite ES. destruct (pc_solve_spec it Hit xz Hog Ho CO i (mlabel m) F Lm MF) as [(s & -> & A & B & C)|[-> N]]; cbn [rbind].
      + destruct (IH (dset d i s)) as [(cf & E & NC & KC & GC)|R]; auto.
        * intros p Hp. apply HL. right; auto.
        * intros k Hk. apply dkeys_dset in Hk. destruct Hk as [->|Hk]; auto. intros K. apply (DJ k Hk). right; auto.
        * apply dset_NoDup; auto.
        * intros j t. rewrite dget_dset. destruct (Nat.eqb_spec i j) as [<-|]; [intros [= <-]; split; auto|apply HG].
        * left. exists cf. split; auto. split; auto. split; auto. intros j. rewrite KC, dkeys_dset. cbn [map fst In]. intuition congruence.
      + right. split; auto. exists i. split; [apply (in_map fst _ _ Hm)|]. exact N. }
  destruct (G (og_meas og) []) as [(cf & E & A & B & C)|R]; auto.
  - apply Hog. - constructor. - intros i s; discriminate.
  - left. exists cf. split; auto. split; auto. split; auto. intros i. rewrite B. cbn. tauto.
Qed.
(** sound and complete, when X-corrections target no input *)
Theorem to_pauliflow_spec : (forall u v, In u (dkeys (og_meas og)) -> mem v (dgets (xz_x xz) u) = true -> ~ In v (og_in og)) ->
  (exists f, xz_to_pauliflow it xz = Ok f /\ pf_og f = og /\ pf_layers f = ls /\ NoDup (dkeys (pf_cf f)) /\ pauli_flow og (pf_cf f) ls /\ flow_corr og (pf_cf f) ls xz) \/
  (xz_to_pauliflow it xz = Err EFlow /\ forall cf, pauli_flow og cf ls -> ~ flow_corr og cf ls xz).
Proof.
  intros XI. unfold xz_to_pauliflow. destruct reconstruct_spec as [(cf & -> & ND & KC & G)|[-> (i & Hi & N)]]; cbn [rbind].
  - left. eexists. split; [reflexivity|]. cbn [pf_og pf_layers pf_cf]. split; auto. split; auto. split; auto. split.
    + apply pauli_flow_at. split; auto. split; [|intros i s Hs; apply (G i s Hs)]. constructor.
      * intros i. rewrite <- (proj2 (ok_meas _ Hog) i), <- KC. split; [intros (s & K); apply dget_is_key in K; auto|apply dget_keys].
      * intros i s j Hs Hj. destruct (G i s Hs) as [A _]. destruct (A j Hj) as [K1 [K2|K2]]; split; eauto. apply (XI i); auto. apply KC. eapply dget_is_key; eauto.
    + split; auto. split; auto. intros u s Hu v. apply (proj1 (proj2 (G u s Hu))).
  - right. split; auto. intros cf PF FC. apply pauli_flow_at in PF. destruct PF as (_ & CF & PA). apply (proj2 (ok_meas _ Hog)) in Hi. destruct (proj2 (cf_dom _ _ CF i) Hi) as (s & Hs).
    apply (N s); auto; [intros v Hv; apply (cf_img _ _ CF i s v Hs Hv)|]. destruct FC as (_ & _ & FC). intros v. apply (FC i s Hs).
Qed.
(** complete in all cases *)
Theorem to_pauliflow_complete : (exists f, xz_to_pauliflow it xz = Ok f) \/ (xz_to_pauliflow it xz = Err EFlow /\ forall cf, pauli_flow og cf ls -> ~ flow_corr og cf ls xz).
Proof.
  unfold xz_to_pauliflow. destruct reconstruct_spec as [(cf & -> & ND & KC & G)|[-> (i & Hi & N)]]; cbn [rbind]; [left; eauto|].
  right. split; auto. intros cf PF FC. apply pauli_flow_at in PF. destruct PF as (_ & CF & PA). apply (proj2 (ok_meas _ Hog)) in Hi. destruct (proj2 (cf_dom _ _ CF i) Hi) as (s & Hs).
  apply (N s); auto; [intros v Hv; apply (cf_img _ _ CF i s v Hs Hv)|]. destruct FC as (_ & _ & FC). intros v. apply (FC i s Hs).
Qed.
End All.
