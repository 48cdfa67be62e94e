(** Property theorems about the algebraic gflow / Pauli-flow finder (C17) and
    focused flows (C43). *)
From Coq Require Import Reals Arith ZArith List Bool Lia Permutation.
From Verif Require Import Cplx Mat2 NSet Fundamentals CliffordDb Clifford Measure QState Layer Pattern Standardize FlowSem FlowDet OpenGraph FlowSpec Flow FlowWF FlowPat PropFlow Focus TopGen Linalg GPFlow GPGraph GPThm.
Import ListNotations.

Definition labf (og : opengraph) (v : nat) : label := match dget (og_meas og) v with Some m => mlabel m | None => LAxis AX end.
Lemma labf_spec og v l : labelled og v l -> labf og v = l.
Proof. intros (m & E & <-). unfold labf. rewrite E. auto. Qed.
Lemma no_meas og v : og_ok og -> In v (non_outputs_l og) -> exists m, dget (og_meas og) v = Some m.
Proof. intros [_ _ _ [_ H] _] I. apply no_In, H in I. apply dget_keys; auto. Qed.
Lemma lab_pauli_ok og v : og_ok og -> In v (non_outputs_l og) -> lab_pauli og v = Ok (labf og v).
Proof. intros H I. destruct (no_meas og v H I) as [m E]. unfold lab_pauli, og_label, labf. rewrite E. auto. Qed.
Lemma lab_planar_ok og v : og_ok og -> planar og -> In v (non_outputs_l og) -> lab_planar og v = Ok (labf og v).
Proof.
  intros H P I. destruct (no_meas og v H I) as [m E]. unfold lab_planar, labf. rewrite E. cbn [of_opt rbind]. destruct (P v m E) as (a & p & ->). auto.
Qed.
(** with planar measurements, Pauli flow and gflow are the same *)
Lemma pauli_gflow og cf ls : og_ok og -> planar og -> pauli_flow og cf ls -> gflow og cf ls.
Proof.
  intros Hog HP PF. assert (Ho := pfl_order _ _ _ PF). assert (Hc := pfl_cf _ _ _ PF).
  assert (Hlab : forall j, In j (g_nodes (og_graph og)) -> In j (og_out og) \/ exists p, labelled og j (LPlane p)).
  { intros j Hj. destruct (in_dec Nat.eq_dec j (og_out og)) as [|I]; auto. right.
    destruct (no_meas og j Hog) as [me E]; [apply no_In; auto|]. destruct (HP j me E) as (a & p & ->). exists p, (MBloch a p). auto. }
  assert (Hout : forall i s j, dget cf i = Some s -> In j (og_out og) -> prec ls i j).
  { intros i s j Hs Hj. destruct (proj1 (cf_dom _ _ Hc i) (ex_intro _ s Hs)) as [I1 I2]. apply (ord_cover _ _ Ho) in I1. destruct I1 as [a Ha].
    assert (Hne : og_out og <> []) by (destruct (og_out og); [destruct Hj|discriminate]).
    exists a, 0. split; auto. split; [apply (ord_first _ _ Ho); auto|]. destruct a; [|lia]. exfalso. apply I2. apply (ord_first _ _ Ho); auto. }
  split; auto.
  - intros i s j Hs Hm Hij. destruct (Hlab j) as [I|[p L]]; [apply (cf_img _ _ Hc i s j Hs Hm)|eauto|]. eapply (pfl_1 _ _ _ PF); eauto; discriminate.
  - intros i s j Hs Hm Hij. assert (Hn : In j (g_nodes (og_graph og))).
    { destruct Hm as (l & _ & H & Hl). destruct l as [|u l]; [discriminate|]. destruct (proj1 (H u) (or_introl eq_refl)) as [_ A]. apply adjacent_nodes in A; [tauto|apply Hog]. }
    destruct (Hlab j Hn) as [I|[p L]]; [eauto|]. eapply (pfl_2 _ _ _ PF); eauto; discriminate.
  - apply (pfl_4 _ _ _ PF).
  - apply (pfl_5 _ _ _ PF).
  - apply (pfl_6 _ _ _ PF).
Qed.
Lemma find_pauliflow_correct it og : iter_ok it -> og_ok og -> simple (og_graph og) ->
  (exists f, find_pauliflow it og = Ok (Some f) /\ pf_og f = og /\ NoDup (dkeys (pf_cf f)) /\ pauli_flow og (pf_cf f) (pf_layers f) /\ focused og (pf_cf f) /\
     forall cf ls, pauli_flow og cf ls -> length (pf_layers f) <= length ls) \/
  (find_pauliflow it og = Ok None /\ forall cf ls, ~ pauli_flow og cf ls).
Proof.
  intros H1 H2 H3. assert (Hl : forall v, In v (non_outputs_l og) -> lab_pauli og v = Ok (labf og v)) by (intros; apply lab_pauli_ok; auto).
  destruct (og_matrices_spec og _ _ Hl) as (M & N & E & _). exact (find_gp_correct it og _ _ H1 H2 H3 Hl (labf_spec og) M N E).
Qed.
Lemma find_gflow_correct it og : iter_ok it -> og_ok og -> simple (og_graph og) -> planar og ->
  (exists f, find_gflow it og = Ok (Some f) /\ pf_og f = og /\ NoDup (dkeys (pf_cf f)) /\ gflow og (pf_cf f) (pf_layers f) /\ focused og (pf_cf f) /\
     forall cf ls, gflow og cf ls -> length (pf_layers f) <= length ls) \/
  (find_gflow it og = Ok None /\ forall cf ls, ~ gflow og cf ls).
Proof.
  intros H1 H2 H3 H4. assert (Hl : forall v, In v (non_outputs_l og) -> lab_planar og v = Ok (labf og v)) by (intros; apply lab_planar_ok; auto).
  destruct (og_matrices_spec og _ _ Hl) as (M & N & E & _).
  destruct (find_gp_correct it og _ _ H1 H2 H3 Hl (labf_spec og) M N E) as [(f & A & B & C & D & F & G)|[A B]]; [left|right].
  - exists f. split; auto. split; auto. split; auto. split; [apply pauli_gflow; auto|]. split; auto. intros cf ls HG. apply (G cf ls). exact (gflow_pauli (PF og cf ls) H4 HG).
  - split; auto. intros cf ls HG. apply (B cf ls). exact (gflow_pauli (PF og cf ls) H4 HG).
Qed.

(** ** C17 *)
(** For every open graph without self loops and whatever the iteration order of
    sets, to_pauliflow_or_none raises no error; it returns a Pauli flow of the
    graph if there is one, and None if there is none *)
Theorem C17_pauliflow_sound_complete : forall it og, iter_ok it -> og_ok og -> simple (og_graph og) ->
  (exists f, find_pauliflow it og = Ok (Some f) /\ to_pauliflow it og = Ok f /\ pf_og f = og /\ pauli_flow og (pf_cf f) (pf_layers f)) \/
  (find_pauliflow it og = Ok None /\ to_pauliflow it og = Err EOpenGraph /\ forall cf ls, ~ pauli_flow og cf ls).
Proof.
  intros it og H1 H2 H3. destruct (find_pauliflow_correct it og H1 H2 H3) as [(f & E & A & _ & B & _)|[E N]]; [left; exists f|right]; unfold to_pauliflow; rewrite E; auto.
Qed.
Print Assumptions C17_pauliflow_sound_complete.
(** the same for gflow, when all measurements are planar *)
Theorem C17_gflow_sound_complete : forall it og, iter_ok it -> og_ok og -> simple (og_graph og) -> planar og ->
  (exists f, find_gflow it og = Ok (Some f) /\ to_gflow it og = Ok f /\ pf_og f = og /\ gflow og (pf_cf f) (pf_layers f)) \/
  (find_gflow it og = Ok None /\ to_gflow it og = Err EOpenGraph /\ forall cf ls, ~ gflow og cf ls).
Proof.
  intros it og H1 H2 H3 H4. destruct (find_gflow_correct it og H1 H2 H3 H4) as [(f & E & A & _ & B & _)|[E N]]; [left; exists f|right]; unfold to_gflow; rewrite E; auto.
Qed.
Print Assumptions C17_gflow_sound_complete.
(** the flows found pass check_well_formed *)
Theorem C17_found_checks : forall it it' og f, iter_ok it -> iter_ok it' -> og_ok og -> simple (og_graph og) ->
  (find_pauliflow it og = Ok (Some f) -> pf_check it' f = Ok tt) /\
  (planar og -> find_gflow it og = Ok (Some f) -> gf_check it' f = Ok tt).
Proof.
  intros it it' og f H1 H1' H2 H3. split.
  - intros E. destruct (find_pauliflow_correct it og H1 H2 H3) as [(f' & E' & <- & N & B & _)|[E' _]]; [|congruence].
    rewrite E in E'. injection E' as <-. destruct (pf_check_decides it' H1' f H2 N) as [[K _]|[_ K]]; auto. tauto.
  - intros HP E. destruct (find_gflow_correct it og H1 H2 H3 HP) as [(f' & E' & <- & N & B & _)|[E' _]]; [|congruence].
    rewrite E in E'. injection E' as <-. destruct (gf_check_decides it' H1' f H2 N HP) as [[K _]|[_ K]]; auto. tauto.
Qed.
Print Assumptions C17_found_checks.
(** no flow of the graph has fewer layers than the flow found *)
Theorem C17_minimal_depth : forall it og f, iter_ok it -> og_ok og -> simple (og_graph og) ->
  (find_pauliflow it og = Ok (Some f) -> forall cf ls, pauli_flow og cf ls -> length (pf_layers f) <= length ls) /\
  (planar og -> find_gflow it og = Ok (Some f) -> forall cf ls, gflow og cf ls -> length (pf_layers f) <= length ls).
Proof.
  intros it og f H1 H2 H3. split.
  - intros E. destruct (find_pauliflow_correct it og H1 H2 H3) as [(f' & E' & _ & _ & _ & _ & D)|[E' _]]; [|congruence].
    rewrite E in E'. injection E' as <-. auto.
  - intros HP E. destruct (find_gflow_correct it og H1 H2 H3 HP) as [(f' & E' & _ & _ & _ & _ & D)|[E' _]]; [|congruence].
    rewrite E in E'. injection E' as <-. auto.
Qed.
Print Assumptions C17_minimal_depth.
(** together with C18: the flows found give runnable deterministic patterns *)
Theorem C17_pattern : forall it og f, iter_ok it -> og_ok og -> simple (og_graph og) ->
  (find_pauliflow it og = Ok (Some f) -> exists xz, pf_to_xz it f = Ok xz /\ yields_deterministic it og (pf_layers f) xz) /\
  (planar og -> find_gflow it og = Ok (Some f) -> exists xz, gf_to_xz f = Ok xz /\ yields_deterministic it og (pf_layers f) xz).
Proof.
  intros it og f H1 H2 H3. destruct (C17_found_checks it it og f H1 H1 H2 H3) as [K1 K2]. split.
  - intros E. specialize (K1 E). destruct (find_pauliflow_correct it og H1 H2 H3) as [(f' & E' & <- & N & _)|[E' _]]; [|congruence]. rewrite E in E'. injection E' as <-.
    apply C18_pauli_flow_deterministic; auto.
  - intros HP E. specialize (K2 HP E). destruct (find_gflow_correct it og H1 H2 H3 HP) as [(f' & E' & <- & N & _)|[E' _]]; [|congruence]. rewrite E in E'. injection E' as <-.
    apply C18_gflow_deterministic; auto.
Qed.
Print Assumptions C17_pattern.

(** *** Non-vacuity *)
(** two lines 0 - 1 - 2 and 3 - 4 *)
Definition lines_og (a : R) : opengraph := OG (Graph [0; 1; 2; 3; 4] [(0, 1); (1, 2); (3, 4)]) [0; 3] [2; 4] [(0, MBloch a PXY); (1, MBloch a PXY); (3, MBloch a PXY)] [].
Lemma lines_ok a : og_ok (lines_og a) /\ simple (og_graph (lines_og a)) /\ planar (lines_og a).
Proof.
  split; [|split].
  - apply og_ok_dec; try reflexivity. apply graph_ok_dec; try reflexivity. repeat constructor; cbn; intuition discriminate.
  - intros e [<-|[<-|[<-|[]]]]; discriminate.
  - intros [|[|[|[|[|k]]]]] m; cbn; intros [= <-]; eauto.
Qed.
Example lines_found a : exists f, find_gflow elems (lines_og a) = Ok (Some f) /\ find_pauliflow elems (lines_og a) = Ok (Some f) /\
  pf_layers f = [of_list [2; 4]; sing 1; of_list [0; 3]].
Proof. eexists. split; [vm_compute; reflexivity|]. split; vm_compute; reflexivity. Qed.
(** more outputs than inputs: the general case, where the P-matrix is computed *)
Definition wide_og (a : R) : opengraph := OG (Graph [0; 1; 2; 3; 4; 5] [(0, 3); (0, 4); (0, 5); (1, 4); (1, 5); (2, 3); (2, 5)]) [0; 1] [3; 4; 5]
  [(0, MBloch a PXY); (1, MBloch a PXY); (2, MBloch a PXY)] [].
Lemma wide_ok a : og_ok (wide_og a) /\ simple (og_graph (wide_og a)) /\ planar (wide_og a).
Proof.
  split; [|split].
  - apply og_ok_dec; try reflexivity. apply graph_ok_dec; try reflexivity. repeat constructor; cbn; intuition discriminate.
  - intros e H. cbn in H. repeat destruct H as [<-|H]; try discriminate; destruct H.
  - intros [|[|[|[|[|k]]]]] m; cbn; intros [= <-]; eauto.
Qed.
Example wide_found a : exists f, find_gflow elems (wide_og a) = Ok (Some f) /\ length (pf_layers f) = 2.
Proof. eexists. split; vm_compute; reflexivity. Qed.
(** the docstring's example (opengraph.py:556-569): XZ measurements have no Pauli flow, X measurements have one *)
Definition doc_og (m0 m1 : measurement) : opengraph := OG (Graph [0; 1; 2] [(0, 1); (1, 2)]) [0] [2] [(0, m0); (1, m1)] [].
Example doc_none : find_pauliflow elems (doc_og (MBloch (/ 2) PXZ) (MBloch (/ 2) PXZ)) = Ok None.
Proof. vm_compute. reflexivity. Qed.
Example doc_some : exists f, find_pauliflow elems (doc_og (MPauli AX Plus) (MPauli AX Plus)) = Ok (Some f) /\
  pf_cf f = [(0, sing 1); (1, sing 2)] /\ pf_layers f = [sing 2; of_list [0; 1]].
Proof. eexists. split; [vm_compute; reflexivity|]. split; vm_compute; reflexivity. Qed.

(** *** Refutations *)
(** the flow found is not maximally delayed, contrary to the docstrings of
    to_gflow, to_pauliflow and their _or_none versions (opengraph.py:405, 434,
    491, 524): node 3 of [lines_og] can be measured one layer later *)
Theorem C17_maximally_delayed_refuted : exists og f cf ls a b v, og_ok og /\ simple (og_graph og) /\ planar og /\
  find_gflow elems og = Ok (Some f) /\ find_pauliflow elems og = Ok (Some f) /\ gflow og cf ls /\
  length ls = length (pf_layers f) /\ (forall i n, in_layer ls i n -> exists j, in_layer (pf_layers f) j n /\ i <= j) /\
  in_layer ls a v /\ in_layer (pf_layers f) b v /\ a < b.
Proof.
  destruct (lines_ok 0) as (A & B & C). destruct (lines_found 0) as (f & F1 & F2 & F3).
  exists (lines_og 0), f, (pf_cf f), [of_list [2; 4]; of_list [1; 3]; sing 0], 1, 2, 3.
  do 5 (split; [assumption|]). split.
  - pose (f2 := PF (lines_og 0) (pf_cf f) [of_list [2; 4]; of_list [1; 3]; sing 0]).
    assert (Ef : pf_cf f = [(0, sing 1); (1, sing 2); (3, sing 4)]). { assert (X : find_gflow elems (lines_og 0) = Ok (Some f)) by auto. vm_compute in X. injection X as <-. reflexivity. }
    destruct (gf_check_decides elems iter_elems f2 A) as [[_ K]|[K _]]; auto.
    + unfold f2. cbn [pf_cf]. rewrite Ef. repeat constructor; cbn; intuition discriminate.
    + exfalso. unfold f2 in K. rewrite Ef in K. vm_compute in K. discriminate.
  - rewrite F3. split; [reflexivity|]. split.
    + intros i n (l & E & H). clear F1 F2. destruct i as [|[|[|[]]]]; cbn [nth_error] in E; try (discriminate E); injection E as <-.
      * exists 0. split; [exists (of_list [2; 4]); auto|lia].
      * apply (proj1 (mem_of_list n [1; 3])) in H. destruct H as [<-|[<-|[]]]; [exists 1; split; [exists (sing 1); auto|lia]|exists 2; split; [exists (of_list [0; 3]); auto|lia]].
      * exists 2. split; [|lia]. rewrite mem_sing in H. apply Nat.eqb_eq in H. subst. exists (of_list [0; 3]); auto.
    + split; [exists (of_list [1; 3]); auto|]. split; [exists (of_list [0; 3]); auto|lia].
Qed.
Print Assumptions C17_maximally_delayed_refuted.
(** the hypothesis on self loops is needed: an open graph with a self loop is
    accepted, and the flow found on it does not pass check_well_formed *)
Theorem C17_self_loop_refuted : exists g ms og f, og_make g [] [] ms [] = Ok og /\ find_pauliflow elems og = Ok (Some f) /\ pf_check elems f = Err EFlow.
Proof.
  exists (Graph [0] [(0, 0)]), [(0, MPauli AY Plus)]. eexists. eexists. split; [vm_compute; reflexivity|]. split; vm_compute; reflexivity.
Qed.
Print Assumptions C17_self_loop_refuted.

(** ** C43 *)
(** is_focused decides the definition of focused flow *)
Theorem C43_is_focused_decides : forall f, og_ok (pf_og f) -> NoDup (dkeys (pf_cf f)) -> corrf_ok (pf_og f) (pf_cf f) ->
  (is_focused f = Ok true /\ focused (pf_og f) (pf_cf f)) \/ (is_focused f = Ok false /\ ~ focused (pf_og f) (pf_cf f)).
Proof. intros f [_ _ _ [H _] _] H2 H3. apply is_focused_decides; auto. intros i s n Hs Hn. apply (cf_img _ _ H3 i s n Hs Hn). Qed.
Print Assumptions C43_is_focused_decides.
(** the flows found by to_pauliflow and to_gflow are focused *)
Theorem C43_found_focused : forall it og f, iter_ok it -> og_ok og -> simple (og_graph og) ->
  (find_pauliflow it og = Ok (Some f) \/ (planar og /\ find_gflow it og = Ok (Some f))) -> focused og (pf_cf f) /\ is_focused f = Ok true.
Proof.
  intros it og f H1 H2 H3 H.
  assert (X : pf_og f = og /\ NoDup (dkeys (pf_cf f)) /\ corrf_ok og (pf_cf f) /\ focused og (pf_cf f)).
  { destruct H as [E|[HP E]].
    - destruct (find_pauliflow_correct it og H1 H2 H3) as [(f' & E' & A & N & B & D & _)|[E' _]]; [|congruence]. rewrite E in E'. injection E' as <-.
      split; auto. split; auto. split; [apply B|auto].
    - destruct (find_gflow_correct it og H1 H2 H3 HP) as [(f' & E' & A & N & B & D & _)|[E' _]]; [|congruence]. rewrite E in E'. injection E' as <-.
      split; auto. split; auto. split; [apply B|auto]. }
  destruct X as (<- & N & B & D). split; auto. destruct (C43_is_focused_decides f H2 N B) as [[E _]|[_ E]]; auto. tauto.
Qed.
Print Assumptions C43_found_focused.
(** a well-formed flow that is not focused: p(v) = {v + 1} on the line 0 - 1 - 2 - 3 *)
Example unfocused (a : R) : exists f, pf_check elems f = Ok tt /\ gf_check elems f = Ok tt /\ is_focused f = Ok false.
Proof.
  exists (PF (OG (Graph [0; 1; 2; 3] [(0, 1); (1, 2); (2, 3)]) [0] [3] [(0, MBloch a PXY); (1, MBloch a PXY); (2, MBloch a PXY)] []) [(0, sing 1); (1, sing 2); (2, sing 3)] [sing 3; sing 2; sing 1; sing 0]).
  split; [vm_compute; reflexivity|]. split; vm_compute; reflexivity.
Qed.
(** ... and the finder's flow on the same graph is *)
Example refocused (a : R) : exists f, find_gflow elems (OG (Graph [0; 1; 2; 3] [(0, 1); (1, 2); (2, 3)]) [0] [3] [(0, MBloch a PXY); (1, MBloch a PXY); (2, MBloch a PXY)] []) = Ok (Some f) /\
  pf_cf f = [(0, of_list [1; 3]); (1, sing 2); (2, sing 3)] /\ is_focused f = Ok true.
Proof. eexists. split; [vm_compute; reflexivity|]. split; vm_compute; reflexivity. Qed.
