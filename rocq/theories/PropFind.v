(** Property theorems about the flow finders (C15). *)
From Coq Require Import Reals Arith List Bool Lia Permutation.
From Verif Require Import Cplx Mat2 NSet Fundamentals CliffordDb Clifford Measure QState Layer Pattern Standardize FlowSem FlowDet OpenGraph FlowSpec Flow FlowWF FlowPat PropFlow TopGen CFlow.
Import ListNotations.

(** ** C15 *)
(** For every open graph with planar measurements and whatever the iteration
    order of sets, to_causalflow_or_none raises no error; it returns a causal
    flow of the graph if there is one, and None if there is none *)
Theorem C15_finder_sound_complete : forall it og, iter_ok it -> og_ok og -> planar og ->
  (exists f, find_cflow it og = Ok (Some f) /\ to_causalflow it og = Ok f /\ pf_og f = og /\ causal_flow og (pf_cf f) (pf_layers f)) \/
  (find_cflow it og = Ok None /\ to_causalflow it og = Err EOpenGraph /\ forall cf ls, ~ causal_flow og cf ls).
Proof.
  intros it og H1 H2 H3. destruct (find_cflow_correct it og H1 H2 H3) as [(f & E & A & _ & B & _)|[E N]]; [left; exists f|right]; unfold to_causalflow; rewrite E; auto.
Qed.
Print Assumptions C15_finder_sound_complete.
(** the flow found passes its own check *)
Theorem C15_found_checks : forall it it' og f, iter_ok it -> iter_ok it' -> og_ok og -> planar og -> find_cflow it og = Ok (Some f) -> cf_check it' f = Ok tt.
Proof.
  intros it it' og f H1 H1' H2 H3 E. destruct (find_cflow_correct it og H1 H2 H3) as [(f' & E' & <- & N & B & _)|[E' _]]; [|congruence].
  rewrite E in E'. injection E' as <-. destruct (cf_check_decides it' H1' f H2 N H3) as [[K _]|[_ K]]; auto. tauto.
Qed.
Print Assumptions C15_found_checks.
(** no causal flow of the graph measures any node later than the flow found:
    its depth is minimal *)
Theorem C15_maximally_delayed : forall it og f, iter_ok it -> og_ok og -> planar og -> find_cflow it og = Ok (Some f) ->
  forall cf ls, causal_flow og cf ls -> (forall a b n, in_layer (pf_layers f) a n -> in_layer ls b n -> a <= b) /\ length (pf_layers f) <= length ls.
Proof.
  intros it og f H1 H2 H3 E cf ls CF. destruct (find_cflow_correct it og H1 H2 H3) as [(f' & E' & A & N & B & D)|[E' _]]; [|congruence].
  rewrite E in E'. injection E' as <-. split; [apply (D cf ls CF)|].
  destruct (pf_layers f) as [|l0 lr] eqn:EL; [simpl; lia|]. rewrite <- EL in *.
  destruct (nth_error (pf_layers f) (length (pf_layers f) - 1)) as [l|] eqn:EN.
  - destruct (ord_ne _ _ (cfl_order _ _ _ B) _ _ EN) as (n & Hn). assert (X : in_layer (pf_layers f) (length (pf_layers f) - 1) n) by (exists l; auto).
    assert (Y : In n (g_nodes (og_graph og))) by (apply (ord_cover _ _ (cfl_order _ _ _ B)); eauto).
    apply (ord_cover _ _ (cfl_order _ _ _ CF)) in Y. destruct Y as (b & Hb). pose proof (D cf ls CF _ _ _ X Hb).
    assert (b < length ls) by (destruct Hb as (l' & Q & _); apply nth_error_Some; congruence). lia.
  - apply nth_error_None in EN. rewrite EL in *. simpl in EN. lia.
Qed.
Print Assumptions C15_maximally_delayed.
(** together with C18: the flow found gives a runnable deterministic pattern *)
Theorem C15_pattern : forall it og f, iter_ok it -> og_ok og -> simple (og_graph og) -> planar og -> find_cflow it og = Ok (Some f) ->
  exists xz, cf_to_xz f = Ok xz /\ yields_deterministic it og (pf_layers f) xz.
Proof.
  intros it og f H1 H2 H3 H4 E. pose proof (C15_found_checks it it og f H1 H1 H2 H4 E) as K.
  destruct (find_cflow_correct it og H1 H2 H4) as [(f' & E' & <- & N & _)|[E' _]]; [|congruence]. rewrite E in E'. injection E' as <-.
  apply C18_causal_flow_deterministic; auto.
Qed.
Print Assumptions C15_pattern.

(** *** Non-vacuity *)
Example find_line a b : exists f, find_cflow elems (line_og (MBloch a PXY) (MBloch b PXY)) = Ok (Some f) /\ pf_layers f = [sing 2; sing 1; sing 0] /\ pf_cf f = [(1, sing 2); (0, sing 1)].
Proof. eexists. split; [vm_compute; reflexivity|]. split; reflexivity. Qed.
(** two candidates see the same node: whatever wins, a flow is found *)
Definition vee_og (a : R) : opengraph := OG (Graph [0; 1; 2] [(0, 1); (0, 2)]) [0] [1; 2] [(0, MBloch a PXY)] [].
Example find_vee a : find_cflow elems (vee_og a) = Ok (Some (PF (vee_og a) [(0, sing 2)] [of_list [1; 2]; sing 0])) /\
  find_cflow (fun s => rev (elems s)) (vee_og a) = Ok (Some (PF (vee_og a) [(0, sing 1)] [of_list [1; 2]; sing 0])).
Proof. split; vm_compute; reflexivity. Qed.
(** a triangle with one output: no causal flow *)
Definition tri_og (a b : R) : opengraph := OG (Graph [0; 1; 2] [(0, 1); (1, 2); (0, 2)]) [0] [2] [(0, MBloch a PXY); (1, MBloch b PXY)] [].
Example tri_none a b : find_cflow elems (tri_og a b) = Ok None /\ og_ok (tri_og a b) /\ planar (tri_og a b).
Proof.
  split; [vm_compute; reflexivity|]. split.
  - apply og_ok_dec; try reflexivity. apply graph_ok_dec; try reflexivity. repeat constructor; cbn; intuition discriminate.
  - intros [|[|n]] m; cbn; intros [= <-]; eauto.
Qed.
