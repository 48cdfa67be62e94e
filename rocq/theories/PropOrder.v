(** Property theorems about partial orders: topological generations (C14) and
    XZ-corrections (C19). *)
From Coq Require Import Reals Arith ZArith List Bool Lia Permutation Relations.
From Verif Require Import Cplx Mat2 NSet Fundamentals CliffordDb Clifford Measure QState Layer Pattern Standardize FlowSem FlowDet OpenGraph FlowSpec Flow FlowWF FlowPat PropFlow TopGen Corr.
Import ListNotations.

(** ** C14: for every finite directed graph given by its nodes, edges and
    positive in-degrees, and whatever the iteration order of sets,
    compute_topological_generations raises no error, returns None iff there is a
    cycle, and otherwise layers as documented *)
Theorem C14_topological_generations : forall it V dag indeg zero, iter_ok it -> tg_input V dag indeg zero ->
  (topological_generations it dag indeg zero = Ok None /\ cyclic V dag) \/
  (exists gens, topological_generations it dag indeg zero = Ok (Some gens) /\ ~ cyclic V dag /\ generations_ok V dag gens).
Proof.
  intros it V dag indeg zero HI HT. destruct (tg_correct it V dag indeg zero HI HT) as [H|(g & H & G)]; [auto|].
  right. exists g. split; auto. split; auto. eapply gens_acyclic; eauto.
Qed.
Print Assumptions C14_topological_generations.
(** layers that satisfy the specification are unique: the result does not depend
    on the iteration order *)
Lemma gens_le V dag g h : generations_ok V dag g -> generations_ok V dag h -> (forall u v, edge dag u v -> In u V) ->
  forall i n, in_layer g i n -> forall j, in_layer h j n -> i <= j.
Proof.
  intros G H HE i. induction i as [|i IH]; intros n Hn j Hj; [lia|].
  destruct (go_early _ _ _ G n i Hn) as (u & E & Hu). assert (Vu : In u V) by eauto.
  pose proof Vu as Vu'. apply (go_cover _ _ _ H) in Vu'. destruct Vu' as (k & Hk).
  pose proof (IH u Hu k Hk). pose proof (go_edge _ _ _ H u n k j Vu E Hk Hj). lia.
Qed.
Theorem C14_layers_unique : forall V dag g h, (forall u v, edge dag u v -> In u V) -> generations_ok V dag g -> generations_ok V dag h -> g = h.
Proof.
  intros V dag g h HE G H.
  assert (K : forall a b, generations_ok V dag a -> generations_ok V dag b -> forall i n, in_layer a i n -> in_layer b i n).
  { intros a b A B i n Hn. assert (Vn : In n V) by (apply (go_cover _ _ _ A); eauto). apply (go_cover _ _ _ B) in Vn. destruct Vn as (j & Hj).
    pose proof (gens_le V dag a b A B HE i n Hn j Hj). pose proof (gens_le V dag b a B A HE j n Hj i Hn). replace i with j by lia. auto. }
  assert (L : forall a b, generations_ok V dag a -> generations_ok V dag b -> forall i l, nth_error a i = Some l -> nth_error b i = Some l).
  { intros a b A B i l Hl. destruct (go_ne _ _ _ A i l Hl) as (n & Hn). assert (X : in_layer a i n) by (exists l; auto).
    apply (K a b A B) in X. destruct X as (l' & X1 & X2). rewrite X1. f_equal. apply nset_ext. intros k. apply eq_true_iff_eq. split; intros Q.
    - assert (Y : in_layer a i k) by (apply (K b a B A); exists l'; auto). destruct Y as (l2 & Y1 & Y2). congruence.
    - assert (Y : in_layer b i k) by (apply (K a b A B); exists l; auto). destruct Y as (l2 & Y1 & Y2). congruence. }
  clear -L G H. assert (N : forall i, nth_error g i = nth_error h i).
  { intros i. destruct (nth_error g i) as [l|] eqn:E; [symmetry; eapply L; eauto|]. destruct (nth_error h i) as [l|] eqn:E'; auto. rewrite (L h g H G _ _ E') in E; auto. }
  clear -N. revert h N. induction g as [|a g IH]; intros [|b h] N; auto; try (specialize (N 0); discriminate).
  pose proof (N 0) as N0. cbn in N0. injection N0 as <-. f_equal. apply IH. intros i. apply (N (S i)).
Qed.
Print Assumptions C14_layers_unique.

(** *** Non-vacuity: a diamond, and a triangle with a tail *)
Definition dagl (d : dict nset) : daglookup := fun u => Some (dgets d u).
Definition diamond : dict nset := [(0, of_list [1; 2]); (1, of_list [3]); (2, of_list [3; 4])].
Lemma edge_diamond u v : edge (dagl diamond) u v <-> In (u, v) [(0, 1); (0, 2); (1, 3); (2, 3); (2, 4)].
Proof.
  unfold edge, dagl, diamond, dgets. cbn [dget]. split.
  - intros (s & Es & K). destruct u as [|[|[|u]]]; injection Es as <-.
    + assert (In v [1; 2]) by (apply mem_of_list; exact K); simpl in *; intuition congruence.
    + assert (In v [3]) by (apply mem_of_list; exact K); simpl in *; intuition congruence.
    + assert (In v [3; 4]) by (apply mem_of_list; exact K); simpl in *; intuition congruence.
    + exfalso. assert (K2 : mem v sempty = true) by exact K. rewrite mem_empty in K2. discriminate.
  - intros K. eexists. split; [reflexivity|]. simpl in K. intuition; match goal with H : (_, _) = _ |- _ => injection H as <- <- end; reflexivity.
Qed.
Ltac dia := intuition; repeat match goal with H : (_, _) = (_, _) |- _ => injection H; clear H; intros; subst end; auto 10; try congruence; try discriminate.
Example diamond_input : tg_input [0; 1; 2; 3; 4] (dagl diamond) [(1, 1%Z); (2, 1%Z); (3, 2%Z); (4, 1%Z)] (sing 0).
Proof.
  constructor.
  - apply ndb_spec; reflexivity.
  - intros u _. eexists. split; [reflexivity|]. intros v K. assert (E : edge (dagl diamond) u v) by (eexists; split; [reflexivity|exact K]).
    apply edge_diamond in E. simpl in E. intuition; match goal with H : (_, _) = _ |- _ => injection H as <- <- end; simpl; auto 8.
  - apply ndb_spec; reflexivity.
  - assert (U : forall v l l' (P : nat -> Prop), NoDup l -> NoDup l' -> (forall u, In u l <-> P u) -> (forall u, In u l' <-> P u) -> v = Z.of_nat (length l) -> v = Z.of_nat (length l')).
    { intros v l l' P A B C D ->. f_equal. apply Permutation_length, NoDup_Permutation; auto. intros u. rewrite C, D. tauto. }
    intros v k. split.
    + cbn [dget]. intros H.
      repeat match type of H with (if (?a =? v)%nat then _ else _) = _ => destruct (Nat.eqb_spec a v) as [Ev|_]; [subst v; injection H as <-; split; [simpl; auto 8|split; [lia|]]|] end; try discriminate.
      * exists [0]. split; [apply ndb_spec; reflexivity|]. split; [|reflexivity]. intros u. rewrite edge_diamond. simpl. dia.
      * exists [0]. split; [apply ndb_spec; reflexivity|]. split; [|reflexivity]. intros u. rewrite edge_diamond. simpl. dia.
      * exists [1; 2]. split; [apply ndb_spec; reflexivity|]. split; [|reflexivity]. intros u. rewrite edge_diamond. simpl. dia.
      * exists [2]. split; [apply ndb_spec; reflexivity|]. split; [|reflexivity]. intros u. rewrite edge_diamond. simpl. dia.
    + intros (Hv & Kp & l & L1 & L2 & ->). simpl in Hv.
      destruct Hv as [<-|[<-|[<-|[<-|[<-|[]]]]]]; cbn [dget Nat.eqb].
      * exfalso. destruct l as [|a l]; [simpl in Kp; lia|]. destruct (proj1 (L2 a) (or_introl eq_refl)) as [_ E]. apply edge_diamond in E. simpl in E. intuition congruence.
      * f_equal. apply (U _ [0] l (fun u => In u [0; 1; 2; 3; 4] /\ edge (dagl diamond) u 1)); auto; [apply ndb_spec; reflexivity|]. intros u. rewrite edge_diamond. simpl. dia.
      * f_equal. apply (U _ [0] l (fun u => In u [0; 1; 2; 3; 4] /\ edge (dagl diamond) u 2)); auto; [apply ndb_spec; reflexivity|]. intros u. rewrite edge_diamond. simpl. dia.
      * f_equal. apply (U _ [1; 2] l (fun u => In u [0; 1; 2; 3; 4] /\ edge (dagl diamond) u 3)); auto; [apply ndb_spec; reflexivity|]. intros u. rewrite edge_diamond. simpl. dia.
      * f_equal. apply (U _ [2] l (fun u => In u [0; 1; 2; 3; 4] /\ edge (dagl diamond) u 4)); auto; [apply ndb_spec; reflexivity|]. intros u. rewrite edge_diamond. simpl. dia.
  - intros v. rewrite mem_sing, Nat.eqb_eq. split.
    + intros ->. split; [simpl; auto|]. intros u _ E. apply edge_diamond in E. simpl in E. intuition congruence.
    + intros (K1 & K2). simpl in K1. destruct K1 as [<-|[<-|[<-|[<-|[<-|[]]]]]]; auto; exfalso.
      * apply (K2 0); [simpl; auto|apply edge_diamond; simpl; auto].
      * apply (K2 0); [simpl; auto|apply edge_diamond; simpl; auto].
      * apply (K2 1); [simpl; auto|apply edge_diamond; simpl; auto].
      * apply (K2 2); [simpl; auto|apply edge_diamond; simpl; auto 8].
Qed.
Example diamond_gens : topological_generations elems (dagl diamond) [(1, 1%Z); (2, 1%Z); (3, 2%Z); (4, 1%Z)] (sing 0) = Ok (Some [sing 0; of_list [1; 2]; of_list [3; 4]]).
Proof. vm_compute. reflexivity. Qed.
Example cycle_none : topological_generations elems (dagl [(0, sing 1); (1, sing 2); (2, sing 1)]) [(1, 2%Z); (2, 1%Z)] (sing 0) = Ok None.
Proof. vm_compute. reflexivity. Qed.

(** ** C19 *)
(** from_measured_nodes_mapping accepts exactly the well-formed mappings (keys
    are measured nodes, values are nodes, no closed loop), raises
    XZCorrectionsError otherwise, and its layers form a partial order of the
    graph in which every corrected node comes after the node on which it depends *)
Theorem C19_from_mapping_decides : forall it og x z, iter_ok it -> og_ok og -> NoDup (dkeys x) -> NoDup (dkeys z) ->
  (exists ls, from_mapping it og x z = Ok (XZ og x z ls) /\ corr_ok og x z /\ order_ok og ls /\ corr_ordered x z ls) \/
  (from_mapping it og x z = Err EXZ /\ ~ corr_ok og x z).
Proof. apply from_mapping_decides. Qed.
Print Assumptions C19_from_mapping_decides.
(** check_well_formed decides its documented conditions *)
Theorem C19_check_well_formed_decides : forall it xz, iter_ok it -> og_ok (xz_og xz) ->
  (xz_check it xz = Ok tt /\ xz_wf (xz_og xz) (xz_x xz) (xz_z xz) (xz_layers xz)) \/
  (xz_check it xz = Err EXZ /\ ~ xz_wf (xz_og xz) (xz_x xz) (xz_z xz) (xz_layers xz)).
Proof. apply xz_check_decides. Qed.
Print Assumptions C19_check_well_formed_decides.

(** the commands of a pattern with exactly these corrections *)
Definition corr_command (og : opengraph) (x z : dict nset) (c : cmd) : Prop :=
  match c with
  | CN n st => st = SPlus /\ In n (g_nodes (og_graph og)) /\ ~ In n (og_in og)
  | CE u v => In (u, v) (g_edges (og_graph og))
  | CM n m s t => measured_as og n m /\ s = sempty /\ t = sempty
  | CX v d => exists u s, d = sing u /\ dget x u = Some s /\ mem v s = true
  | CZ v d => exists u s, d = sing u /\ dget z u = Some s /\ mem v s = true
  | CC n k => In (n, k) (og_cliff og)
  | _ => False
  end.
Definition is_CC (c : cmd) : bool := match c with CC _ _ => true | _ => false end.
Lemma NoDup_app_disj {A} (a b : list A) : NoDup a -> NoDup b -> (forall x, In x a -> ~ In x b) -> NoDup (a ++ b).
Proof.
  induction a as [|x a IH]; intros Ha Hb D; auto. inversion Ha; subst. simpl. constructor.
  - rewrite in_app_iff. intros [K|K]; auto. apply (D x); simpl; auto.
  - apply IH; auto. intros y Hy. apply D. right; auto.
Qed.
Lemma NoDup_map_in {A B} (f : A -> B) l : (forall a b, In a l -> In b l -> f a = f b -> a = b) -> NoDup l -> NoDup (map f l).
Proof.
  induction l as [|x l IH]; intros H N; cbn; [constructor|]. inversion N; subst. constructor.
  - rewrite in_map_iff. intros (y & E & Hy). apply H in E; simpl; auto. subst; auto.
  - apply IH; auto. intros; apply H; simpl; auto.
Qed.
Lemma sing_inj a b : sing a = sing b -> a = b.
Proof. intros E. assert (K : mem a (sing b) = true) by (rewrite <- E, mem_sing; apply Nat.eqb_refl). rewrite mem_sing in K. apply Nat.eqb_eq; auto. Qed.
Section Cmds.
  Variables (it : iter) (og : opengraph) (x z : dict nset) (ls : list nset).
  Hypothesis Hit : iter_ok it.
  Hypothesis Hog : og_ok og.
  Hypothesis HK : keys_measured og x z.
  Lemma meas_key n : In n (dkeys (og_meas og)) <-> In n (g_nodes (og_graph og)) /\ ~ In n (og_out og).
  Proof. apply (proj2 (ok_meas _ Hog)). Qed.
  Lemma in_flow_seq o c : (forall n, In n o <-> In n (g_nodes (og_graph og)) /\ ~ In n (og_out og)) ->
    (In c (flow_seq (measf og) (fun u => it (dgets x u)) (fun u => it (dgets z u)) o) <->
     match c with CM _ _ _ _ | CX _ _ | CZ _ _ => corr_command og x z c | _ => False end).
  Proof.
    intros Ho. unfold flow_seq. rewrite in_flat_map. split.
    - intros (u & Hu & K). simpl in K. unfold corr_cmds in K. rewrite in_app_iff, !in_map_iff in K. destruct K as [<-|[(v & <- & K)|(v & <- & K)]].
      + apply Ho, meas_key, dget_keys in Hu. destruct Hu as (m & Hm). cbn. unfold measured_as, measf. rewrite Hm. auto.
      + apply iter_In in K; auto. apply dgets_mem in K. destruct K as (s & K1 & K2). cbn. eauto.
      + apply iter_In in K; auto. apply dgets_mem in K. destruct K as (s & K1 & K2). cbn. eauto.
    - destruct c; try tauto; cbn [corr_command].
      + intros (K & -> & ->). exists n. split; [apply Ho, meas_key; eapply dget_is_key; eauto|]. left. unfold measf. rewrite K. auto.
      + intros (u & s & -> & K & Q). exists u. split; [apply Ho, HK; left; eapply dget_is_key; eauto|]. right. unfold corr_cmds. apply in_app_iff. right.
        apply in_map_iff. exists n. split; auto. apply iter_In; auto. apply dgets_mem; eauto.
      + intros (u & s & -> & K & Q). exists u. split; [apply Ho, HK; right; eapply dget_is_key; eauto|]. right. unfold corr_cmds. apply in_app_iff. left.
        apply in_map_iff. exists n. split; auto. apply iter_In; auto. apply dgets_mem; eauto.
  Qed.
  Lemma flow_seq_NoDup o : NoDup o -> NoDup (flow_seq (measf og) (fun u => it (dgets x u)) (fun u => it (dgets z u)) o).
  Proof.
    induction o as [|u o IH]; intros N; cbn; [constructor|]. inversion N as [|? ? N1 N2]; subst.
    assert (IN : forall c, In c (corr_cmds (fun u => it (dgets x u)) (fun u => it (dgets z u)) u) -> exists v, c = CX v (sing u) \/ c = CZ v (sing u)).
    { intros c K. unfold corr_cmds in K. rewrite in_app_iff, !in_map_iff in K. destruct K as [(v & <- & _)|(v & <- & _)]; eauto. }
    assert (IF : forall c, In c (flow_seq (measf og) (fun u => it (dgets x u)) (fun u => it (dgets z u)) o) ->
              exists w, In w o /\ (c = CM w (measf og w) sempty sempty \/ exists v, c = CX v (sing w) \/ c = CZ v (sing w))).
    { intros c K. unfold flow_seq in K. rewrite in_flat_map in K. destruct K as (w & Hw & K). exists w. split; auto. simpl in K. destruct K as [<-|K]; auto. right.
      unfold corr_cmds in K. rewrite in_app_iff, !in_map_iff in K. destruct K as [(v & <- & _)|(v & <- & _)]; eauto. }
    constructor.
    - rewrite in_app_iff. intros [K|K].
      + apply IN in K. destruct K as (v & [K|K]); discriminate.
      + apply IF in K. destruct K as (w & Hw & [K|(v & [K|K])]); try discriminate. injection K as -> _. auto.
    - apply NoDup_app_disj.
      + unfold corr_cmds. apply NoDup_app_disj.
        * apply NoDup_map_in; [|apply iter_NoDup; auto]. intros a b _ _ E. injection E; auto.
        * apply NoDup_map_in; [|apply iter_NoDup; auto]. intros a b _ _ E. injection E; auto.
        * intros c. rewrite !in_map_iff. intros (a & <- & _) (b & E & _). discriminate.
      + apply IH; auto.
      + intros c K1 K2. apply IN in K1. apply IF in K2. destruct K1 as (v & K1), K2 as (w & Hw & K2). apply N1.
        assert (sing u = sing w); [|apply sing_inj in H; subst; auto].
        destruct K1 as [->| ->], K2 as [K2|(v' & [K2|K2])]; try discriminate; congruence.
  Qed.
  Lemma xz_cmds_spec o : NoDup o -> (forall n, In n o <-> In n (g_nodes (og_graph og)) /\ ~ In n (og_out og)) ->
    let l := xz_cmds it (XZ og x z ls) o in
    NoDup l /\ (forall c, In c l <-> corr_command og x z c) /\ exists a b, l = a ++ b /\ Forall (fun c => is_CC c = false) a /\ Forall (fun c => is_CC c = true) b.
  Proof.
    intros No Ho l. unfold l, xz_cmds. cbn [xz_og xz_x xz_z]. clear l.
    assert (IN : forall c, In c (map (fun n => CN n SPlus) (it (sdiff (og_nodes og) (of_list (og_in og))))) <-> match c with CN _ _ => corr_command og x z c | _ => False end).
    { intros c. rewrite in_map_iff. split.
      - intros (n & <- & K). apply iter_In in K; auto. unfold og_nodes in K. rewrite mem_sdiff, andb_true_iff, negb_true_iff, <- not_true_iff_false, !mem_of_list in K. cbn; tauto.
      - destruct c; try tauto. cbn. intros (-> & K). exists n. split; auto. apply iter_In; auto. unfold og_nodes. rewrite mem_sdiff, andb_true_iff, negb_true_iff, <- not_true_iff_false, !mem_of_list. tauto. }
    assert (IE : forall c, In c (map (fun e => CE (fst e) (snd e)) (g_edges (og_graph og))) <-> match c with CE _ _ => corr_command og x z c | _ => False end).
    { intros c. rewrite in_map_iff. split.
      - intros ([a b] & <- & K). cbn. auto.
      - destruct c; try tauto. cbn. intros K. exists (u, v). auto. }
    assert (IC : forall c, In c (map (fun p => CC (fst p) (snd p)) (og_cliff og)) <-> match c with CC _ _ => corr_command og x z c | _ => False end).
    { intros c0. rewrite in_map_iff. split.
      - intros ([a b] & <- & K). cbn. auto.
      - destruct c0; try tauto. cbn. intros K. eexists. split; [|exact K]. reflexivity. }
    pose proof (in_flow_seq o) as IF.
    split; [|split].
    - apply NoDup_app_disj; [|apply NoDup_app_disj; [|apply NoDup_app_disj|]|].
      + apply NoDup_map_in; [|apply iter_NoDup; auto]. intros a b _ _ E. injection E; auto.
      + destruct (ok_graph _ Hog) as (_ & Ne & _). apply NoDup_map_inv in Ne. apply NoDup_map_in; auto. intros [a b] [c d] _ _ E. injection E as <- <-. auto.
      + apply flow_seq_NoDup; auto.
      + apply NoDup_map_in; [|apply (NoDup_map_inv fst), (proj1 (ok_cliff _ Hog))]. intros [a b] [c d] _ _ E. injection E as <- <-. auto.
      + intros c K. rewrite IC. rewrite IF in K by auto. destruct c; tauto.
      + intros c K. rewrite in_app_iff, IC, IF by auto. rewrite IE in K. destruct c; tauto.
      + intros c K. rewrite !in_app_iff, IC, IE, IF by auto. rewrite IN in K. destruct c; tauto.
    - intros c. rewrite !in_app_iff, IN, IE, IC, IF by auto. destruct c; cbn; tauto.
    - rewrite !app_assoc. do 2 eexists. split; [reflexivity|]. split.
      + apply Forall_forall. intros c K. rewrite !in_app_iff, IN, IE, IF in K by auto. destruct c; tauto.
      + apply Forall_forall. intros c K. rewrite IC in K. destruct c; tauto.
  Qed.
End Cmds.
(** accepted corrections give a pattern, for the default order and for every
    order compatible with the layers (if some node is measured); every pattern
    obtained is runnable, with the inputs and outputs of the graph, and consists
    of the graph preparation, the plain measurements and exactly the given
    corrections, each once, with the Clifford commands at the end *)
Theorem C19_pattern : forall it og x z xz, iter_ok it -> og_ok og -> NoDup (dkeys x) -> NoDup (dkeys z) -> from_mapping it og x z = Ok xz ->
  xz_check it xz = Ok tt /\
  (exists p, xz_to_pattern it xz None = Ok p) /\
  (forall o, order_compat og (xz_layers xz) o -> dkeys (og_meas og) <> [] -> exists p, xz_to_pattern it xz (Some o) = Ok p) /\
  (forall order p, xz_to_pattern it xz order = Ok p ->
     p_in p = og_in og /\ p_out p = og_out og /\ check_runnability p = Ok tt /\ NoDup (p_seq p) /\ (forall c, In c (p_seq p) <-> corr_command og x z c) /\
     exists a b, p_seq p = a ++ b /\ Forall (fun c => is_CC c = false) a /\ Forall (fun c => is_CC c = true) b).
Proof.
  intros it og x z xz Hit Hog Nx Nz E. destruct (from_mapping_decides it og x z Hit Hog Nx Nz) as [(ls & E' & CO & O & R)|[E' _]]; [|congruence].
  rewrite E in E'. injection E' as ->. cbn [xz_layers].
  assert (RS : xz_respects (XZ og x z ls)) by (intros u v _ K; apply R, corrects_dgets; auto).
  split; [|split; [|split]].
  - destruct (xz_check_decides it (XZ og x z ls) Hit Hog) as [[K _]|[_ K]]; auto. exfalso. apply K. cbn. split; [apply CO|]. split; auto.
  - destruct (total_order_ok og ls Hog O it (XZ og x z ls) Hit eq_refl eq_refl) as (o & T & OC).
    destruct (xz_pattern_ok it Hit (XZ og x z ls) Hog O RS None o T OC) as (p & K & _); eauto.
  - intros o OC N. destruct (xz_pattern_ok it Hit (XZ og x z ls) Hog O RS (Some o) o eq_refl OC) as (p & K & _); eauto.
  - intros order p K. destruct (xz_pattern_inv it Hit (XZ og x z ls) Hog O RS order p K) as (o & (O1 & O2 & O3) & _ & P1 & P2 & P3 & P4). cbn [xz_og] in *.
    split; auto. split; auto. split; [apply check_runnability_spec; auto|]. rewrite P3. apply xz_cmds_spec; auto. apply CO.
Qed.
Print Assumptions C19_pattern.

(** *** Non-vacuity: corrections on a line, with two kinds from node 0 *)
Definition line_x : dict nset := [(0, sing 1); (1, sing 2)].
Definition line_z : dict nset := [(0, of_list [1; 2])].
Example line_from_mapping a b : exists xz p, from_mapping elems (line_og (MBloch a PXY) (MBloch b PXY)) line_x line_z = Ok xz /\
  xz_layers xz = [sing 2; sing 1; sing 0] /\ xz_to_pattern elems xz None = Ok p /\ length (p_seq p) = 11.
Proof. eexists. eexists. split; [vm_compute; reflexivity|]. split; [reflexivity|]. split; [vm_compute; reflexivity|reflexivity]. Qed.
Example line_loop a b : from_mapping elems (line_og (MBloch a PXY) (MBloch b PXY)) line_x [(1, sing 0)] = Err EXZ.
Proof. vm_compute. reflexivity. Qed.
Example line_unknown a b : from_mapping elems (line_og (MBloch a PXY) (MBloch b PXY)) line_x [(1, sing 7)] = Err EXZ.
Proof. vm_compute. reflexivity. Qed.

(** check_well_formed alone does not guarantee a runnable pattern: it accepts a
    correction on a node that is not in the graph *)
Theorem C19_unknown_node_refuted : exists xz p, og_ok (xz_og xz) /\ xz_check elems xz = Ok tt /\ xz_to_pattern elems xz None = Ok p /\ check_runnability p <> Ok tt.
Proof.
  exists (XZ (line_og (MBloch 0 PXY) (MBloch 0 PXY)) [(0, sing 7)] [] [sing 2; sing 1; sing 0]). eexists. split; [apply line_ok|].
  split; [vm_compute; reflexivity|]. split; [vm_compute; reflexivity|]. vm_compute. discriminate.
Qed.
Print Assumptions C19_unknown_node_refuted.
(** an explicit total order is rejected with IndexError when no node is
    measured, although the empty order is the only (and a compatible) order *)
Theorem C19_empty_order_refuted : exists og xz p, og_ok og /\ from_mapping elems og [] [] = Ok xz /\ order_compat og (xz_layers xz) [] /\
  xz_to_pattern elems xz None = Ok p /\ xz_to_pattern elems xz (Some []) = Err EIndex.
Proof.
  exists (OG (Graph [0] []) [0] [0] [] []). eexists. eexists. split; [|split; [vm_compute; reflexivity|split; [|split; vm_compute; reflexivity]]].
  - apply og_ok_dec; try reflexivity. apply graph_ok_dec; try reflexivity. constructor.
  - split; [constructor|]. split; [intros n; cbn; tauto|]. intros [|a l] u b v c E; discriminate.
Qed.
Print Assumptions C19_empty_order_refuted.
