(** The flow-demand and order-demand matrices, and Pauli flow as matrix equations. *)
From Coq Require Import Reals Arith ZArith List Bool Lia Permutation.
From Verif Require Import NSet Fundamentals Measure Layer Pattern OpenGraph FlowSpec Flow FlowWF TopGen Linalg LinalgThm GPFlow GPLin GPAlg GPLoop GPMat.
Import ListNotations.

Section Graph.
  Variable og : opengraph.
  Notation g := (og_graph og).
  Notation no := (non_outputs_l og).
  Notation ni := (non_inputs_l og).
  Notation m := (length (non_outputs_l og)).
  Notation n := (length (non_inputs_l og)).

  Lemma no_In v : In v no <-> In v (g_nodes g) /\ ~ In v (og_out og).
  Proof. unfold non_outputs_l, non_outputs, og_nodes. rewrite elems_spec, mem_sdiff, andb_true_iff, negb_true_iff, <- not_true_iff_false, !mem_of_list. tauto. Qed.
  Lemma ni_In v : In v ni <-> In v (g_nodes g) /\ ~ In v (og_in og).
  Proof. unfold non_inputs_l, og_nodes. rewrite elems_spec, mem_sdiff, andb_true_iff, negb_true_iff, <- not_true_iff_false, !mem_of_list. tauto. Qed.
  Lemma no_NoDup : NoDup no. Proof. apply elems_NoDup. Qed.
  Lemma ni_NoDup : NoDup ni. Proof. apply elems_NoDup. Qed.
  Lemma split_length V A B : NoDup V -> NoDup A -> NoDup B -> (forall x : nat, In x A -> In x V) -> (forall x, In x B <-> In x V /\ ~ In x A) -> length B + length A = length V.
  Proof.
    intros NV NA NB HA HB. rewrite <- app_length. apply Permutation_length, NoDup_Permutation; auto.
    - apply NoDup_app; auto. intros x Hx. apply HB in Hx. tauto.
    - intros x. rewrite in_app_iff, HB. split; [intros [[H _]|H]; auto|]. intros H. destruct (in_dec Nat.eq_dec x A); auto.
  Qed.
  Hypothesis Hog : og_ok og.
  Lemma sizes : m + length (og_out og) = n + length (og_in og).
  Proof.
    destruct Hog as [[G1 _] [I1 I2] [O1 O2] _ _].
    rewrite (split_length (g_nodes g) (og_out og) no G1 O1 no_NoDup O2 no_In). symmetry.
    apply (split_length (g_nodes g) (og_in og) ni G1 I1 ni_NoDup I2 ni_In).
  Qed.

  (** ** Matrix entries *)
  Lemma set_ent_shaped a b i j A : shaped a b A -> i < a -> shaped a b (set_ent i j A).
  Proof. intros HA Hi. apply shaped_upd; auto. rewrite updb_length. apply (shaped_row a b); auto. Qed.
  Lemma ent_set_ent a b i j A i' j' : shaped a b A -> i < a -> j < b ->
    ent (set_ent i j A) i' j' = (if (i' =? i)%nat && (j' =? j)%nat then true else ent A i' j').
  Proof.
    intros HA Hi Hj. unfold set_ent. rewrite !ent_row, row_upd by (destruct HA; lia). destruct (Nat.eqb_spec i' i); auto. subst i'. cbn [andb].
    rewrite nth_updb by (rewrite (shaped_row a b); auto). destruct (Nat.eqb_spec j' j); auto.
  Qed.
  Lemma set_adj_spec u v A : shaped m n A -> shaped m n (set_adj no ni u v A) /\
    forall i j, i < m -> j < n -> ent (set_adj no ni u v A) i j = ((nth i no 0 =? u)%nat && (nth j ni 0 =? v)%nat) || ent A i j.
  Proof.
    intros HA. unfold set_adj. destruct (lmem u no && lmem v ni) eqn:E.
    - apply andb_true_iff in E. destruct E as [E1 E2]. apply lmem_In in E1, E2. assert (P1 := pos_lt _ _ E1). assert (P2 := pos_lt _ _ E2).
      split; [apply set_ent_shaped; auto|]. intros i j Hi Hj. rewrite (ent_set_ent m n) by auto.
      replace (i =? pos u no)%nat with (nth i no 0 =? u)%nat. replace (j =? pos v ni)%nat with (nth j ni 0 =? v)%nat.
      + destruct ((nth i no 0 =? u)%nat && (nth j ni 0 =? v)%nat); auto.
      + apply eq_true_iff_eq. rewrite !Nat.eqb_eq. split; [intros <-; symmetry; apply pos_nth; auto using ni_NoDup|intros ->; apply nth_pos; auto].
      + apply eq_true_iff_eq. rewrite !Nat.eqb_eq. split; [intros <-; symmetry; apply pos_nth; auto using no_NoDup|intros ->; apply nth_pos; auto].
    - split; auto. intros i j Hi Hj. destruct (Nat.eqb_spec (nth i no 0) u) as [E1|E1]; auto. destruct (Nat.eqb_spec (nth j ni 0) v) as [E2|E2]; auto. exfalso.
      apply andb_false_iff in E. destruct E as [E|E]; apply not_true_iff_false in E; apply E, lmem_In; [rewrite <- E1|rewrite <- E2]; apply nth_In; auto.
  Qed.
  Definition adjb (u v : nat) : bool := mem v (nbh g u).
  Lemma adjb_sym u v : adjb u v = adjb v u.
  Proof. unfold adjb. apply eq_true_iff_eq. rewrite !mem_nbh. split; apply adjacent_sym. Qed.
  Lemma reduced_adj_spec : shaped m n (reduced_adj og) /\ forall i j, i < m -> j < n -> ent (reduced_adj og) i j = adjb (nth i no 0) (nth j ni 0).
  Proof.
    unfold reduced_adj. cbv zeta.
    assert (G : forall es A, shaped m n A -> let A' := fold_left (fun A e => set_adj no ni (snd e) (fst e) (set_adj no ni (fst e) (snd e) A)) es A in
      shaped m n A' /\ forall i j, i < m -> j < n -> ent A' i j = existsb (fun e => ((nth i no 0 =? fst e)%nat && (nth j ni 0 =? snd e)%nat) || ((nth i no 0 =? snd e)%nat && (nth j ni 0 =? fst e)%nat)) es || ent A i j).
    { induction es as [|e es IH]; intros A HA; cbn [fold_left existsb]; [simpl; auto|].
      destruct (set_adj_spec (fst e) (snd e) A HA) as [A1 A2]. destruct (set_adj_spec (snd e) (fst e) _ A1) as [B1 B2].
      destruct (IH _ B1) as [C1 C2]. split; auto. intros i j Hi Hj. rewrite C2, B2, A2 by auto.
      destruct (existsb _ es), ((nth i no 0 =? snd e)%nat && (nth j ni 0 =? fst e)%nat), ((nth i no 0 =? fst e)%nat && (nth j ni 0 =? snd e)%nat), (ent A i j); auto. }
    destruct (G (g_edges g) (tab m (fun _ => tab n (fun _ => false))) (shaped_tab _ _ _)) as [A B]. cbv zeta in *. split; auto.
    intros i j Hi Hj. rewrite B by auto. rewrite ent_tab by auto. rewrite orb_false_r. apply eq_true_iff_eq. unfold adjb. rewrite mem_nbh, existsb_exists. unfold adjacent. split.
    - intros ([a b] & I & E). cbn [fst snd] in E. rewrite orb_true_iff, !andb_true_iff, !Nat.eqb_eq in E. destruct E as [[-> ->]|[-> ->]]; auto.
    - intros [I|I]; eexists; (split; [exact I|]); cbn [fst snd]; rewrite !Nat.eqb_refl; cbn; auto. apply orb_true_r.
  Qed.

  Variables (lab : nat -> res label) (labf : nat -> label).
  Hypothesis Hlab : forall v, In v no -> lab v = Ok (labf v).
  (** the entries for a node [v] labelled [l] *)
  Definition Ment (l : label) (v x : nat) : bool := (in_M1 l && (x =? v)%nat) || (negb (in_M0 l) && adjb v x).
  Definition Nent (l : label) (v x : nat) : bool := (in_N1 l && (x =? v)%nat) || (negb (in_N0 l) && adjb v x).
  Lemma zero_row_spec i A : shaped m n A -> i < m -> shaped m n (zero_row n i A) /\ forall i' j, j < n -> ent (zero_row n i A) i' j = if (i' =? i)%nat then false else ent A i' j.
  Proof.
    intros HA Hi. split; [apply shaped_upd; auto; apply tab_length|]. intros i' j Hj. unfold zero_row. rewrite !ent_row, row_upd by (destruct HA; lia).
    destruct (i' =? i)%nat; auto. apply nth_tab. auto.
  Qed.
  (** one update: zero the row, then set one entry *)
  Definition upd2 (b0 b1 : bool) (v : nat) (A : list (list bool)) : list (list bool) :=
    let A := if b0 then zero_row n (pos v no) A else A in
    if b1 && negb (lmem v (og_in og)) then set_ent (pos v no) (pos v ni) A else A.
  Lemma upd2_spec b0 b1 v A : shaped m n A -> In v no -> shaped m n (upd2 b0 b1 v A) /\
    forall i j, i < m -> j < n -> ent (upd2 b0 b1 v A) i j = if (nth i no 0 =? v)%nat then (b1 && (nth j ni 0 =? v)%nat) || (negb b0 && ent A i j) else ent A i j.
  Proof.
    intros HA Hv. assert (Hp := pos_lt _ _ Hv). unfold upd2. cbv zeta.
    assert (Ei : forall i, i < m -> (i =? pos v no)%nat = (nth i no 0 =? v)%nat).
    { intros i Hi. apply eq_true_iff_eq. rewrite !Nat.eqb_eq. split; [intros ->; apply nth_pos; auto|intros <-; symmetry; apply pos_nth; auto using no_NoDup]. }
    set (A1 := if b0 then zero_row n (pos v no) A else A).
    assert (H1 : shaped m n A1 /\ forall i j, i < m -> j < n -> ent A1 i j = if (nth i no 0 =? v)%nat then negb b0 && ent A i j else ent A i j).
    { unfold A1. destruct b0.
      - destruct (zero_row_spec (pos v no) A HA Hp) as [Z1 Z2]. split; auto. intros i j Hi Hj. rewrite Z2, Ei by auto. auto.
      - split; auto. intros i j Hi Hj. destruct (nth i no 0 =? v)%nat; auto. }
    destruct H1 as [S1 E1]. destruct (b1 && negb (lmem v (og_in og))) eqn:Eb.
    - apply andb_true_iff in Eb. destruct Eb as [-> Eb]. apply negb_true_iff, not_true_iff_false in Eb. rewrite lmem_In in Eb.
      assert (Hni : In v ni) by (apply ni_In; apply no_In in Hv; tauto). assert (Hp2 := pos_lt _ _ Hni).
      split; [apply set_ent_shaped; auto|]. intros i j Hi Hj. rewrite (ent_set_ent m n), Ei, E1 by auto.
      replace (j =? pos v ni)%nat with (nth j ni 0 =? v)%nat.
      + destruct (nth i no 0 =? v)%nat, (nth j ni 0 =? v)%nat; auto.
      + apply eq_true_iff_eq. rewrite !Nat.eqb_eq. split; [intros <-; symmetry; apply pos_nth; auto using ni_NoDup|intros ->; apply nth_pos; auto].
    - split; auto. intros i j Hi Hj. rewrite E1 by auto. destruct (nth i no 0 =? v)%nat; auto.
      replace (b1 && (nth j ni 0 =? v)%nat) with false; auto. symmetry. destruct b1; auto. cbn [andb] in *. apply Nat.eqb_neq. intros E.
      apply negb_false_iff, lmem_In in Eb. assert (I : In (nth j ni 0) ni) by (apply nth_In; auto). rewrite E in I. apply ni_In in I. tauto.
  Qed.
  Lemma demand_fold l : forall M N, NoDup l -> (forall v, In v l -> In v no) -> shaped m n M -> shaped m n N ->
    exists M' N', rfold (demand_node og lab) l (M, N) = Ok (M', N') /\ shaped m n M' /\ shaped m n N' /\
      (forall i j, i < m -> j < n -> let v := nth i no 0 in let x := nth j ni 0 in
         ent M' i j = (if lmem v l then (in_M1 (labf v) && (x =? v)%nat) || (negb (in_M0 (labf v)) && ent M i j) else ent M i j) /\
         ent N' i j = (if lmem v l then (in_N1 (labf v) && (x =? v)%nat) || (negb (in_N0 (labf v)) && ent N i j) else ent N i j)).
  Proof.
    induction l as [|v l IH]; intros M N ND Hl HM HN; cbn [rfold].
    - exists M, N. simpl. auto.
    - inversion ND as [|? ? N1 N2]; subst. assert (Hv : In v no) by (apply Hl; left; auto).
      unfold demand_node at 1. rewrite (Hlab v Hv). cbn [rbind fst snd].
      change (if in_M1 (labf v) && negb (lmem v (og_in og)) then _ else _) with (upd2 (in_M0 (labf v)) (in_M1 (labf v)) v M).
      change (if in_N1 (labf v) && negb (lmem v (og_in og)) then _ else _) with (upd2 (in_N0 (labf v)) (in_N1 (labf v)) v N).
      destruct (upd2_spec (in_M0 (labf v)) (in_M1 (labf v)) v M HM Hv) as [A1 A2].
      destruct (upd2_spec (in_N0 (labf v)) (in_N1 (labf v)) v N HN Hv) as [B1 B2].
      destruct (IH _ _ N2 (fun w Hw => Hl w (or_intror Hw)) A1 B1) as (M' & N' & E & C1 & C2 & C3).
      exists M', N'. split; auto. split; auto. split; auto. intros i j Hi Hj. cbv zeta. destruct (C3 i j Hi Hj) as [D1 D2]. rewrite D1, D2, A2, B2 by auto.
      unfold lmem. cbn [existsb]. destruct (Nat.eqb_spec (nth i no 0) v) as [Ev|Ev]; cbn [orb]; auto.
      rewrite !Ev. replace (existsb (Nat.eqb v) l) with false; auto. symmetry. apply not_true_iff_false. intros K. apply N1, lmem_In. auto.
  Qed.
  Lemma og_matrices_spec : exists M N, og_matrices og lab = Ok (M, N) /\ mrows M = m /\ mcols M = n /\ mrows N = m /\ mcols N = n /\ mat_ok M /\ mat_ok N /\
    forall i j, i < m -> j < n -> ent (mdata M) i j = Ment (labf (nth i no 0)) (nth i no 0) (nth j ni 0) /\ ent (mdata N) i j = Nent (labf (nth i no 0)) (nth i no 0) (nth j ni 0).
  Proof.
    destruct reduced_adj_spec as [A B]. destruct (demand_fold no _ _ no_NoDup (fun v H => H) A A) as (M & N & E & C1 & C2 & C3).
    unfold og_matrices. cbv zeta. rewrite E. cbn [rbind fst snd]. eexists. eexists. split; [reflexivity|]. cbn [mrows mcols mdata]. do 4 (split; [auto|]).
    split; [exact C1|]. split; [exact C2|]. intros i j Hi Hj. destruct (C3 i j Hi Hj) as [D1 D2]. cbv zeta in *. rewrite D1, D2, B by auto.
    replace (lmem (nth i no 0) no) with true by (symmetry; apply lmem_In, nth_In; auto). auto.
  Qed.

  (** ** Products *)
  Definition oddb (s : nset) (v : nat) : bool := xorsum (elems s) (fun u => mem v (nbh g u)).
  Lemma oddb_spec s v : oddb s v = true <-> odd_nb g s v.
  Proof. symmetry. apply odd_nb_spec. Qed.
  Definition Mval (l : label) (a o : bool) : bool :=
    match l with LPlane PXY | LAxis AX => o | LAxis AY => xorb o a | _ => a end.
  Definition Nval (l : label) (a o : bool) : bool :=
    match l with LPlane PXY => a | LPlane PXZ => xorb o a | LPlane PYZ => o | LAxis _ => false end.
  Hypothesis Hsimple : simple g.
  (** the vector of a set of non-input nodes *)
  Definition vec (s : nset) (w : nat) : bool := mem (nth w ni 0) s.
  Definition subni (s : nset) : Prop := forall x, mem x s = true -> In x ni.
  Lemma xsum_set (f : nat -> bool) s : subni s -> xsum n (fun w => f (nth w ni 0) && vec s w) = xorsum (elems s) f.
  Proof.
    intros Hs. rewrite xsum_xl. unfold vec.
    assert (E : map (fun w => f (nth w ni 0) && mem (nth w ni 0) s) (seq 0 n) = map (fun x => f x && mem x s) ni).
    { rewrite <- (map_map (fun w => nth w ni 0) (fun x => f x && mem x s)). f_equal. apply nth_ext with (d := 0) (d' := 0); [rewrite map_length, seq_length; auto|].
      intros i Hi. rewrite map_length, seq_length in Hi. rewrite (nth_indep _ 0 (nth 0 ni 0)) by (rewrite map_length, seq_length; auto).
      rewrite (map_nth (fun w => nth w ni 0)). rewrite seq_nth by auto. auto. }
    rewrite E. assert (X : forall l, xl (map (fun x => f x && mem x s) l) = xorsum (filter (fun x => mem x s) l) f).
    { intros l. rewrite xorsum_filter. unfold xl, xorsum. induction l as [|a l IH]; cbn [map fold_right]; auto. rewrite IH. rewrite (andb_comm (mem a s)). auto. }
    rewrite X. apply xorsum_perm. apply NoDup_Permutation; [apply NoDup_filter, ni_NoDup|apply elems_NoDup|].
    intros x. rewrite filter_In, elems_spec. split; [tauto|]. intros H. split; auto.
  Qed.
  Lemma xorsum_eq s v : xorsum (elems s) (fun x => (x =? v)%nat) = mem v s.
  Proof.
    assert (G : forall l, NoDup l -> xorsum l (fun x => (x =? v)%nat) = lmem v l).
    { unfold lmem, xorsum. induction l as [|a l IH]; intros ND; cbn [fold_right existsb]; auto. inversion ND; subst. rewrite IH by auto. rewrite (Nat.eqb_sym a v).
      destruct (Nat.eqb_spec v a); [|destruct (existsb (Nat.eqb v) l); auto]. subst. replace (existsb (Nat.eqb a) l) with false; auto. symmetry. apply not_true_iff_false. intros K. apply H1, lmem_In; auto. }
    rewrite G by apply elems_NoDup. apply eq_true_iff_eq. rewrite lmem_In. apply elems_spec.
  Qed.
  Lemma no_loop v : adjb v v = false.
  Proof. apply not_true_iff_false. unfold adjb. rewrite mem_nbh. intros [H|H]; apply Hsimple in H; auto. Qed.
  Lemma val_gen (b0 b1 : bool) v s : xorsum (elems s) (fun x => (b1 && (x =? v)%nat) || (negb b0 && adjb v x)) = xorb (b1 && mem v s) (negb b0 && oddb s v).
  Proof.
    rewrite (xorsum_ext _ _ (fun x => xorb (b1 && (x =? v)%nat) (negb b0 && mem v (nbh g x)))).
    - rewrite xorsum_xorb. f_equal; [|destruct b0; cbn; [|unfold oddb; auto]].
      + destruct b1; cbn; [apply xorsum_eq|apply xorsum_false; auto].
      + apply xorsum_false; auto.
    - intros x _. change (mem v (nbh g x)) with (adjb x v). rewrite (adjb_sym x v). destruct (Nat.eqb_spec x v).
      + subst. rewrite no_loop. destruct b0, b1; auto.
      + destruct b1, b0, (adjb v x); auto.
  Qed.
  Lemma mv_M M N i s : og_matrices og lab = Ok (M, N) -> i < m -> subni s ->
    mv n (mdata M) (vec s) i = Mval (labf (nth i no 0)) (mem (nth i no 0) s) (oddb s (nth i no 0)) /\
    mv n (mdata N) (vec s) i = Nval (labf (nth i no 0)) (mem (nth i no 0) s) (oddb s (nth i no 0)).
  Proof.
    intros E Hi Hs. destruct og_matrices_spec as (M' & N' & E' & _ & _ & _ & _ & _ & _ & H). rewrite E in E'. injection E' as <- <-. set (v := nth i no 0).
    split; unfold mv.
    - rewrite (xsum_ext n _ (fun w => Ment (labf v) v (nth w ni 0) && vec s w)) by (intros j Hj; destruct (H i j Hi Hj) as [-> _]; auto).
      rewrite (xsum_set (Ment (labf v) v)) by auto. unfold Ment. rewrite val_gen. generalize (mem v s) (oddb s v). intros [] []; destruct (labf v) as [[]|[]]; auto.
    - rewrite (xsum_ext n _ (fun w => Nent (labf v) v (nth w ni 0) && vec s w)) by (intros j Hj; destruct (H i j Hi Hj) as [_ ->]; auto).
      rewrite (xsum_set (Nent (labf v) v)) by auto. unfold Nent. rewrite val_gen. generalize (mem v s) (oddb s v). intros [] []; destruct (labf v) as [[]|[]]; auto.
  Qed.
End Graph.
