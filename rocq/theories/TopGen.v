(** Model of graphix/flow/_partial_order.py, and its correctness. *)
From Coq Require Import Arith ZArith List Bool Lia Permutation Relations.
From Verif Require Import NSet Pattern OpenGraph FlowSpec.
Import ListNotations.

(** * The model *)
(** [dag[node]]: [None] is a KeyError.  A defaultdict is a lookup that never
    fails (the insertion of missing keys is not observable). *)
Definition daglookup := nat -> option nset.
(** _partial_order.py:44-48 one child *)
Definition tg_child (st : dict Z * nset) (child : nat) : res (dict Z * nset) :=
  match dget (fst st) child with
  | None => Err EKey
  | Some k => let k := (k - 1)%Z in
      if (k =? 0)%Z then Ok (ddel (fst st) child, sadd child (snd st)) else Ok (dset (fst st) child k, snd st)
  end.
(** _partial_order.py:43-48 one node *)
Definition tg_node (it : iter) (dag : daglookup) (st : dict Z * nset) (node : nat) : res (dict Z * nset) :=
  match dag node with None => Err EKey | Some cs => rfold tg_child (it cs) st end.
(** _partial_order.py:39-54.  The while loop is a recursion with fuel; running
    out of fuel is the error [EFuel], shown not to happen *)
Fixpoint tg_loop (it : iter) (dag : daglookup) (fuel : nat) (d : dict Z) (zero : nset) (gens : list nset) : res (option (list nset)) :=
  if is_empty zero then Ok (match d with [] => Some gens | _ => None end)
  else match fuel with
       | 0 => Err EFuel
       | S fuel => do st <- rfold (tg_node it dag) (it zero) (d, sempty); tg_loop it dag fuel (fst st) (snd st) (gens ++ [zero])
       end.
Definition topological_generations (it : iter) (dag : daglookup) (indeg : dict Z) (zero : nset) : res (option (list nset)) :=
  tg_loop it dag (S (length indeg)) indeg zero [].

(** * Specification *)
Definition edge (dag : daglookup) (u v : nat) : Prop := exists s, dag u = Some s /\ mem v s = true.
(** the inputs describe the directed graph with nodes [V] and edges [dag] *)
Record tg_input (V : list nat) (dag : daglookup) (indeg : dict Z) (zero : nset) : Prop := {
  ti_nodes : NoDup V;
  ti_dag : forall u, In u V -> exists s, dag u = Some s /\ forall v, mem v s = true -> In v V;
  ti_keys : NoDup (dkeys indeg);
  (** [indeg] holds the positive in-degrees *)
  ti_indeg : forall v k, dget indeg v = Some k <->
    In v V /\ (0 < k)%Z /\ exists l, NoDup l /\ (forall u, In u l <-> In u V /\ edge dag u v) /\ k = Z.of_nat (length l);
  ti_zero : forall v, mem v zero = true <-> In v V /\ forall u, In u V -> ~ edge dag u v }.
(** a directed cycle inside V *)
Definition cyclic (V : list nat) (dag : daglookup) : Prop :=
  exists u, clos_trans nat (fun u v => In u V /\ In v V /\ edge dag u v) u u.
(** the layers partition V, edges go forward, every node is as early as possible *)
Record generations_ok (V : list nat) (dag : daglookup) (gens : list nset) : Prop := {
  go_cover : forall n, In n V <-> exists i, in_layer gens i n;
  go_disj : forall i j n, in_layer gens i n -> in_layer gens j n -> i = j;
  go_ne : forall i l, nth_error gens i = Some l -> exists n, mem n l = true;
  go_edge : forall u v i j, In u V -> edge dag u v -> in_layer gens i u -> in_layer gens j v -> i < j;
  go_early : forall v i, in_layer gens (S i) v -> exists u, edge dag u v /\ in_layer gens i u }.

(** * Correctness *)
(** a finite set in which every element has a predecessor contains a cycle *)
Section Pigeon.
  Variable E : nat -> nat -> Prop.
  Fixpoint chain (x : nat) (w : list nat) : Prop := match w with [] => True | y :: w => E x y /\ chain y w end.
  Lemma chain_reach x w y : chain x w -> In y w -> clos_trans nat E x y.
  Proof.
    revert x; induction w as [|z w IH]; intros x; simpl; [tauto|]. intros [A B] [->|K]; [constructor; auto|].
    eapply t_trans; [constructor; eauto|]. apply IH; auto.
  Qed.
  Lemma chain_dup x w : chain x w -> ~ NoDup (x :: w) -> exists u, clos_trans nat E u u.
  Proof.
    revert x; induction w as [|z w IH]; intros x H K; [exfalso; apply K; repeat constructor; simpl; tauto|].
    destruct (in_dec Nat.eq_dec x (z :: w)) as [I|I].
    - exists x. eapply chain_reach; eauto.
    - apply (IH z); [apply H|]. intros N. apply K. constructor; auto.
  Qed.
  Lemma pred_cycle (R : list nat) x : In x R -> (forall v, In v R -> exists u, In u R /\ E u v) -> exists u, clos_trans nat E u u.
  Proof.
    intros Hx HP.
    assert (W : forall n, exists y w, In y R /\ (forall v, In v w -> In v R) /\ length w = n /\ chain y w).
    { induction n as [|n (y & w & A & B & C & D)].
      - exists x, []. simpl; intuition.
      - destruct (HP y A) as (u & U1 & U2). exists u, (y :: w). simpl. repeat split; auto.
        intros v [<-|K]; auto. }
    destruct (W (length R)) as (y & w & A & B & C & D). apply (chain_dup y w D). intros N.
    assert (length (y :: w) <= length R); [|simpl in *; lia].
    apply NoDup_incl_length; auto. intros v [<-|K]; auto.
  Qed.
End Pigeon.

Section Proof.
  Variables (it : iter) (V : list nat) (dag : daglookup).
  Hypothesis HI : iter_ok it.
  Hypothesis HV : NoDup V.
  Hypothesis HD : forall u, In u V -> exists s, dag u = Some s /\ forall v, mem v s = true -> In v V.
  Definition eb (u v : nat) : bool := match dag u with Some s => mem v s | None => false end.
  Lemma eb_edge u v : eb u v = true <-> edge dag u v.
  Proof.
    unfold eb, edge. destruct (dag u) as [s|].
    - split; [eauto|]. intros (s' & [= <-] & H); auto.
    - split; [discriminate|]. intros (s' & H & _); discriminate.
  Qed.
  (** predecessors of [v] not in [D] *)
  Definition preds (D : nat -> bool) (v : nat) : list nat := filter (fun u => eb u v && negb (D u)) V.
  Definition rk (D : nat -> bool) (v : nat) : nat := length (preds D v).
  Lemma preds_In D v u : In u (preds D v) <-> In u V /\ eb u v = true /\ D u = false.
  Proof. unfold preds. rewrite filter_In, andb_true_iff, negb_true_iff. tauto. Qed.
  Lemma rk_0 D v : rk D v = 0 <-> forall u, In u V -> eb u v = true -> D u = true.
  Proof.
    unfold rk. split.
    - intros H u U1 U2. destruct (D u) eqn:E; auto. assert (K : In u (preds D v)) by (apply preds_In; auto).
      destruct (preds D v); [destruct K|discriminate].
    - intros H. destruct (preds D v) as [|u l] eqn:E; auto. assert (K : In u (preds D v)) by (rewrite E; left; auto).
      apply preds_In in K. destruct K as (A & B & C). rewrite H in C; auto; discriminate.
  Qed.
  Lemma rk_ext D D' v : (forall u, D u = D' u) -> rk D v = rk D' v.
  Proof. intros H. unfold rk, preds. f_equal. apply filter_ext. intros u. rewrite H. auto. Qed.
  Definition addD (D : nat -> bool) (n : nat) : nat -> bool := fun u => (u =? n)%nat || D u.
  Lemma rk_add D n v : In n V -> D n = false -> rk D v = rk (addD D n) v + (if eb n v then 1 else 0).
  Proof.
    unfold rk, preds, addD. clear HD. induction V as [|x l IH]; simpl; [tauto|]. inversion HV; subst. intros [->|I] Dn.
    - assert (Hl : filter (fun u => eb u v && negb ((u =? n) || D u)) l = filter (fun u => eb u v && negb (D u)) l).
      { apply filter_ext_in. intros u Hu. destruct (Nat.eqb_spec u n); [subst; tauto|auto]. }
      rewrite Hl, Nat.eqb_refl, Dn. destruct (eb n v); simpl; lia.
    - specialize (IH H2 I Dn). destruct (Nat.eqb_spec x n); [subst; tauto|]. simpl.
      destruct (eb x v && negb (D x)); simpl; lia.
  Qed.

  (** [d] holds the non-zero values of [f] on V *)
  Definition repr (f : nat -> nat) (d : dict Z) : Prop :=
    forall v k, dget d v = Some k <-> In v V /\ f v <> 0 /\ k = Z.of_nat (f v).
  Lemma repr_ext f g d : (forall v, f v = g v) -> repr f d -> repr g d.
  Proof. intros H K v k. rewrite (K v k), H. tauto. Qed.
  Lemma ddel_length {A} (d : dict A) k : length (ddel d k) <= length d.
  Proof. induction d as [|[a b] d IH]; simpl; auto. destruct (a =? k); simpl; lia. Qed.
  Lemma ddel_length_lt {A} (d : dict A) k v : dget d k = Some v -> length (ddel d k) < length d.
  Proof.
    induction d as [|[a b] d IH]; simpl; [discriminate|]. destruct (Nat.eqb_spec a k); intros H.
    - pose proof (ddel_length d k). lia.
    - simpl. specialize (IH H). lia.
  Qed.
  Lemma dset_length {A} (d : dict A) k v v' : dget d k = Some v -> length (dset d k v') = length d.
  Proof. induction d as [|[a b] d IH]; simpl; [discriminate|]. destruct (Nat.eqb_spec a k); simpl; intros H; auto. Qed.

  Lemma child_fold l : forall f d z, NoDup l -> (forall v, In v l -> In v V /\ f v <> 0) -> repr f d ->
    exists d' z', rfold tg_child l (d, z) = Ok (d', z') /\
      repr (fun v => f v - (if in_dec Nat.eq_dec v l then 1 else 0)) d' /\
      (forall v, mem v z' = true <-> mem v z = true \/ (In v l /\ f v = 1)) /\
      length d' <= length d /\ (z' = z \/ length d' < length d).
  Proof.
    induction l as [|c l IH]; intros f d z ND Hl R.
    - exists d, z. split; [reflexivity|]. split; [|simpl; intuition].
      eapply repr_ext; [|exact R]. intros v. simpl. lia.
    - inversion ND; subst. destruct (Hl c (or_introl eq_refl)) as [Hc1 Hc2].
      assert (G : dget d c = Some (Z.of_nat (f c))) by (apply R; auto).
      set (f1 := fun v => f v - (if v =? c then 1 else 0)).
      assert (Hf1 : forall v, In v l -> In v V /\ f1 v <> 0).
      { intros v Hv. split; [apply Hl; right; auto|]. unfold f1. destruct (Nat.eqb_spec v c); [subst; tauto|].
        rewrite Nat.sub_0_r. apply Hl; right; auto. }
      assert (EX : forall v, f1 v - (if in_dec Nat.eq_dec v l then 1 else 0) = f v - (if in_dec Nat.eq_dec v (c :: l) then 1 else 0)).
      { intros v. unfold f1. destruct (in_dec Nat.eq_dec v (c :: l)) as [I|I]; destruct (in_dec Nat.eq_dec v l) as [J|J];
        destruct (Nat.eqb_spec v c) as [Ev|Ev]; try lia; exfalso; subst; try tauto; simpl in I; try tauto. destruct I; congruence. }
      destruct (Nat.eq_dec (f c) 1) as [E1|E1].
      + assert (R1 : repr f1 (ddel d c)).
        { intros v k. rewrite dget_ddel. unfold f1. rewrite (Nat.eqb_sym v c). destruct (Nat.eqb_spec c v) as [Ev|Ev].
          - split; [discriminate|]. intros (_ & K & _). subst v. lia.
          - rewrite (R v k), Nat.sub_0_r. tauto. }
        destruct (IH f1 (ddel d c) (sadd c z) H2 Hf1 R1) as (d' & z' & A1 & A2 & A3 & A4 & A5).
        exists d', z'. cbn [rfold]. unfold tg_child at 1. cbn [fst snd]. rewrite G, E1. cbn. split; [exact A1|].
        split; [eapply repr_ext; [|exact A2]; auto|]. pose proof (ddel_length_lt d c _ G). split; [|split; [lia|right; lia]].
        intros v. rewrite A3, mem_sadd, orb_true_iff, Nat.eqb_eq. unfold f1. destruct (Nat.eqb_spec v c) as [Ev|Ev].
        * subst v. tauto.
        * rewrite Nat.sub_0_r. simpl. intuition; subst; tauto.
      + assert (R1 : repr f1 (dset d c (Z.of_nat (f c) - 1)%Z)).
        { intros v k. rewrite dget_dset. unfold f1. rewrite (Nat.eqb_sym v c). destruct (Nat.eqb_spec c v) as [Ev|Ev].
          - subst v. split; [intros [= <-]; repeat split; auto; lia|]. intros (_ & _ & ->). f_equal. lia.
          - rewrite (R v k), Nat.sub_0_r. tauto. }
        destruct (IH f1 (dset d c (Z.of_nat (f c) - 1)%Z) z H2 Hf1 R1) as (d' & z' & A1 & A2 & A3 & A4 & A5).
        exists d', z'. cbn [rfold]. unfold tg_child at 1. cbn [fst snd]. rewrite G.
        destruct (Z.eqb_spec (Z.of_nat (f c) - 1) 0) as [K|K]; [exfalso; lia|]. split; [exact A1|].
        rewrite (dset_length d c _ _ G) in *.
        split; [eapply repr_ext; [|exact A2]; auto|]. split; auto.
        intros v. rewrite A3. unfold f1. destruct (Nat.eqb_spec v c) as [Ev|Ev].
        * subst v. simpl. intuition lia.
        * rewrite Nat.sub_0_r. simpl. intuition; subst; tauto.
  Qed.

  Definition addL (D : nat -> bool) (l : list nat) : nat -> bool := fun u => lmem u l || D u.
  Lemma gen_fold l : forall D d z, NoDup l -> (forall u, In u l -> In u V /\ D u = false /\ rk D u = 0) -> repr (rk D) d ->
    exists d' z', rfold (tg_node it dag) l (d, z) = Ok (d', z') /\ repr (rk (addL D l)) d' /\
      (forall v, mem v z' = true <-> mem v z = true \/ (In v V /\ rk D v <> 0 /\ rk (addL D l) v = 0)) /\
      length d' <= length d /\ (z' = z \/ length d' < length d).
  Proof.
    induction l as [|n l IH]; intros D d z ND Hl R.
    - exists d, z. split; [reflexivity|]. split; [exact R|]. split; [|auto].
      intros v. unfold addL. simpl. tauto.
    - inversion ND; subst. destruct (Hl n (or_introl eq_refl)) as (Hn1 & Hn2 & Hn3).
      destruct (HD n Hn1) as (cs & C1 & C2).
      assert (Heb : forall v, eb n v = mem v cs) by (intros v; unfold eb; rewrite C1; auto).
      destruct (child_fold (it cs) (rk D) d z) as (d1 & z1 & A1 & A2 & A3 & A4 & A5).
      + apply iter_NoDup; auto.
      + intros v Hv. apply iter_In in Hv; auto. split; [auto|]. intros K. rewrite rk_0 in K.
        specialize (K n Hn1). rewrite Heb, Hv in K. rewrite K in Hn2; auto; discriminate.
      + exact R.
      + assert (RA : forall v, rk D v - (if in_dec Nat.eq_dec v (it cs) then 1 else 0) = rk (addD D n) v).
        { intros v. rewrite (rk_add D n v Hn1 Hn2), Heb. destruct (in_dec Nat.eq_dec v (it cs)) as [I|I]; rewrite iter_In in I by auto.
          - rewrite I. lia.
          - apply not_true_iff_false in I. rewrite I. lia. }
        destruct (IH (addD D n) d1 z1 H2) as (d2 & z2 & B1 & B2 & B3 & B4 & B5).
        * intros u Hu. destruct (Hl u (or_intror Hu)) as (U1 & U2 & U3). split; auto. split.
          { unfold addD. rewrite U2. destruct (Nat.eqb_spec u n); [subst; tauto|auto]. }
          { pose proof (rk_add D n u Hn1 Hn2). lia. }
        * eapply repr_ext; [exact RA|exact A2].
        * assert (EX : forall u, addL (addD D n) l u = addL D (n :: l) u).
          { intros u. unfold addL, addD. simpl. destruct (lmem u l), (u =? n); auto. }
          exists d2, z2. cbn [rfold]. unfold tg_node at 1. rewrite C1, A1. split; [exact B1|].
          split; [eapply repr_ext; [|exact B2]; intros; apply rk_ext; auto|]. split.
          { intros v. rewrite B3, A3, (rk_ext _ _ _ EX), (iter_In it cs v HI).
            pose proof (rk_add D n v Hn1 Hn2) as Q. rewrite Heb in Q.
            assert (M : rk (addL D (n :: l)) v <= rk (addD D n) v).
            { unfold rk. apply NoDup_incl_length; [apply NoDup_filter; auto|]. intros u. rewrite !preds_In, <- EX. unfold addL.
              intros (P1 & P2 & P3). apply orb_false_iff in P3. tauto. }
            destruct (mem v cs) eqn:Ec.
            - split.
              + intros [[K|[_ K]]|K]; [auto| |]; right; (split; [auto|split; lia]).
              + intros [K|(K1 & K2 & K3)]; auto. destruct (Nat.eq_dec (rk D v) 1); [left; right; auto|]. right. split; auto. split; lia.
            - split.
              + intros [[K|[K _]]|K]; [auto|discriminate|]; right; (split; [tauto|split; lia]).
              + intros [K|(K1 & K2 & K3)]; auto. right. split; auto. split; lia. }
          split; [lia|]. destruct B5 as [->|]; [|right; lia]. destruct A5 as [->|]; [auto|right; lia].
  Qed.

  (** loop invariant *)
  Record linv (D : nat -> bool) (d : dict Z) (zero : nset) (gens : list nset) : Prop := {
    li_D : forall v, D v = true -> In v V /\ rk D v = 0;
    li_repr : repr (rk D) d;
    li_zero : forall v, mem v zero = true <-> In v V /\ rk D v = 0 /\ D v = false;
    li_cov : forall v, D v = true <-> exists i, in_layer gens i v;
    li_disj : forall i j n, in_layer gens i n -> in_layer gens j n -> i = j;
    li_ne : forall i l, nth_error gens i = Some l -> exists n, mem n l = true;
    li_edge : forall u v i, In u V -> edge dag u v -> in_layer gens i v -> exists j, j < i /\ in_layer gens j u;
    li_early : forall v i, in_layer gens (S i) v -> exists u, edge dag u v /\ in_layer gens i u;
    li_next : forall v i, length gens = S i -> mem v zero = true -> exists u, edge dag u v /\ in_layer gens i u }.
  Lemma in_layer_snoc gens l i n : in_layer (gens ++ [l]) i n <-> in_layer gens i n \/ (i = length gens /\ mem n l = true).
  Proof.
    unfold in_layer. split.
    - intros (x & A & B). destruct (lt_dec i (length gens)) as [L|L].
      + rewrite nth_error_app1 in A by auto. left; eauto.
      + rewrite nth_error_app2 in A by lia. right. destruct (i - length gens) as [|k] eqn:E; simpl in A.
        * injection A as <-. split; [lia|auto].
        * destruct k; discriminate.
    - intros [(x & A & B)|[-> B]].
      + exists x. split; auto. rewrite nth_error_app1; auto. apply nth_error_Some; congruence.
      + exists l. split; auto. rewrite nth_error_app2, Nat.sub_diag; auto.
  Qed.
  Lemma in_layer_lt gens i n : in_layer gens i n -> i < length gens.
  Proof. intros (l & A & _). apply nth_error_Some; congruence. Qed.
  Lemma lmem_In u l : lmem u l = true <-> In u l.
  Proof. unfold lmem. rewrite existsb_exists. split; [intros (x & A & B); apply Nat.eqb_eq in B; subst; auto|intros H; exists u; split; auto; apply Nat.eqb_refl]. Qed.

  Lemma loop_ok fuel : forall D d zero gens, linv D d zero gens -> (is_empty zero = true \/ length d < fuel) ->
    (tg_loop it dag fuel d zero gens = Ok None /\ cyclic V dag) \/
    (exists g, tg_loop it dag fuel d zero gens = Ok (Some g) /\ generations_ok V dag g).
  Proof.
    induction fuel as [|fuel IH]; intros D d zero gens L HF.
    all: destruct (is_empty zero) eqn:EZ.
    1, 3: assert (Hrem : forall v, In v V -> D v = false -> exists u, In u V /\ D u = false /\ edge dag u v).
    1, 3: intros v Hv Dv; destruct (preds D v) as [|u l] eqn:E;
          [exfalso; assert (K : mem v zero = true) by (apply (li_zero _ _ _ _ L); split; [auto|split; [unfold rk; rewrite E; auto|auto]]);
           rewrite (is_empty_mem _ EZ) in K; discriminate
          |exists u; assert (K : In u (preds D v)) by (rewrite E; left; auto); apply preds_In in K; rewrite <- eb_edge; tauto].
    1, 2: cbn [tg_loop]; rewrite EZ; destruct d as [|[v k] d'].
    1, 3: right; exists gens; split; [reflexivity|];
          assert (HA : forall v, In v V -> D v = true) by
            (intros v Hv; destruct (D v) eqn:Dv; auto; exfalso; destruct (Hrem v Hv Dv) as (u & U1 & U2 & U3); apply eb_edge in U3;
             assert (K : dget (@nil (nat * Z)) v = Some (Z.of_nat (rk D v))) by
              (apply (li_repr _ _ _ _ L); repeat split; auto; intros K; rewrite rk_0 in K; rewrite K in U2; auto; discriminate);
             discriminate);
          constructor;
          [intros n; rewrite <- (li_cov _ _ _ _ L); split; auto; intros K; apply (li_D _ _ _ _ L n K)
          |apply (li_disj _ _ _ _ L)|apply (li_ne _ _ _ _ L)
          |intros u v i j Hu He Hi Hj; destruct (li_edge _ _ _ _ L u v j Hu He Hj) as (i' & K1 & K2); rewrite (li_disj _ _ _ _ L _ _ _ Hi K2); auto
          |apply (li_early _ _ _ _ L)].
    1, 2: left; split; [reflexivity|];
          assert (K : dget ((v, k) :: d') v = Some k) by (simpl; rewrite Nat.eqb_refl; auto);
          apply (li_repr _ _ _ _ L) in K; destruct K as (K1 & K2 & _);
          assert (Dv : D v = false) by (destruct (D v) eqn:Dv; auto; destruct (li_D _ _ _ _ L v Dv); tauto);
          apply (pred_cycle _ (filter (fun x => negb (D x)) V) v);
          [apply filter_In; rewrite Dv; auto
          |intros x Hx; apply filter_In in Hx; destruct Hx as [X1 X2]; apply negb_true_iff in X2;
           destruct (Hrem x X1 X2) as (u & U1 & U2 & U3); exists u; split; [apply filter_In; rewrite U2; auto|auto]].
    - destruct HF as [H|H]; [discriminate|lia].
    - destruct HF as [H|HF]; [discriminate|]. cbn [tg_loop]. rewrite EZ.
      destruct (gen_fold (it zero) D d sempty) as (d1 & z1 & A1 & A2 & A3 & A4 & A5).
      + apply iter_NoDup; auto.
      + intros u Hu. apply iter_In in Hu; auto. apply (li_zero _ _ _ _ L) in Hu. tauto.
      + apply (li_repr _ _ _ _ L).
      + rewrite A1. cbn [rbind fst snd].
        assert (HL : forall v, addL D (it zero) v = true <-> D v = true \/ mem v zero = true).
        { intros v. unfold addL. rewrite orb_true_iff, lmem_In, (iter_In it zero v HI). tauto. }
        assert (Hmono : forall v, rk D v = 0 -> rk (addL D (it zero)) v = 0).
        { intros v. rewrite !rk_0. intros K u U1 U2. apply HL. left; auto. }
        assert (Hz1 : forall v, mem v z1 = true <-> In v V /\ rk D v <> 0 /\ rk (addL D (it zero)) v = 0).
        { intros v. rewrite A3, mem_empty. intuition discriminate. }
        apply (IH (addL D (it zero))).
        * constructor.
          -- intros v Hv. apply HL in Hv. destruct Hv as [Hv|Hv].
             ++ apply (li_D _ _ _ _ L) in Hv. destruct Hv; split; auto.
             ++ apply (li_zero _ _ _ _ L) in Hv. destruct Hv as (? & ? & ?); split; auto.
          -- exact A2.
          -- intros v. rewrite Hz1. split.
             ++ intros (B1 & B2 & B3). split; auto. split; auto. apply not_true_iff_false. rewrite HL. intros [K|K].
                ** apply (li_D _ _ _ _ L) in K. tauto.
                ** apply (li_zero _ _ _ _ L) in K. tauto.
             ++ intros (B1 & B2 & B3). split; auto. split; auto. intros K. apply not_true_iff_false in B3. apply B3, HL.
                destruct (D v) eqn:Dv; auto. right. apply (li_zero _ _ _ _ L). auto.
          -- intros v. rewrite HL, (li_cov _ _ _ _ L). split.
             ++ intros [[i K]|K]; [exists i|exists (length gens)]; apply in_layer_snoc; auto.
             ++ intros [i K]. apply in_layer_snoc in K. destruct K as [K|[_ K]]; eauto.
          -- assert (X : forall i n, in_layer gens i n -> mem n zero = true -> False).
             { intros i n K1 K2. apply (li_zero _ _ _ _ L) in K2. assert (K3 : D n = true) by (apply (li_cov _ _ _ _ L); eauto).
               destruct K2 as (_ & _ & K2). congruence. }
             intros i j n K1 K2. apply in_layer_snoc in K1, K2. destruct K1 as [K1|[-> K1]], K2 as [K2|[-> K2]]; auto.
             ++ apply (li_disj _ _ _ _ L i j n); auto.
             ++ exfalso; eauto.
             ++ exfalso; eauto.
          -- intros i l K. destruct (lt_dec i (length gens)) as [Li|Li].
             ++ rewrite nth_error_app1 in K by auto. eapply (li_ne _ _ _ _ L); eauto.
             ++ rewrite nth_error_app2 in K by lia. destruct (i - length gens) as [|q]; simpl in K; [|destruct q; discriminate].
                injection K as <-. destruct (elems zero) as [|n l'] eqn:En.
                ** exfalso. assert (zero = sempty); [|subst; discriminate]. apply nset_ext. intros n. rewrite mem_empty.
                   apply not_true_iff_false. rewrite <- elems_spec, En. auto.
                ** exists n. apply elems_spec. rewrite En. left; auto.
          -- intros u v i Hu He K. apply in_layer_snoc in K. destruct K as [K|[-> K]].
             ++ destruct (li_edge _ _ _ _ L u v i Hu He K) as (j & J1 & J2). exists j. split; auto. apply in_layer_snoc; auto.
             ++ apply (li_zero _ _ _ _ L) in K. destruct K as (_ & K & _). rewrite rk_0 in K. apply eb_edge in He.
                specialize (K u Hu He). apply (li_cov _ _ _ _ L) in K. destruct K as [j K]. exists j. split; [eapply in_layer_lt; eauto|].
                apply in_layer_snoc; auto.
          -- intros v i K. apply in_layer_snoc in K. destruct K as [K|[K1 K2]].
             ++ destruct (li_early _ _ _ _ L v i K) as (u & U1 & U2). exists u. split; auto. apply in_layer_snoc; auto.
             ++ destruct (li_next _ _ _ _ L v i) as (u & U1 & U2); auto. exists u. split; auto. apply in_layer_snoc; auto.
          -- intros v i Hi K. rewrite app_length in Hi. simpl in Hi. assert (i = length gens) by lia. subst i.
             apply Hz1 in K. destruct K as (K1 & K2 & K3). destruct (preds D v) as [|u l] eqn:E; [exfalso; apply K2; unfold rk; rewrite E; auto|].
             assert (Pu : In u (preds D v)) by (rewrite E; left; auto). apply preds_In in Pu. destruct Pu as (P1 & P2 & P3).
             exists u. split; [apply eb_edge; auto|]. apply in_layer_snoc. right. split; auto.
             rewrite rk_0 in K3. specialize (K3 u P1 P2). apply HL in K3. destruct K3; [congruence|auto].
        * destruct A5 as [->|A5]; [left; reflexivity|right; lia].
  Qed.
  Lemma gens_acyclic g : generations_ok V dag g -> ~ cyclic V dag.
  Proof.
    intros G [u C].
    assert (K : forall x y, clos_trans nat (fun u v => In u V /\ In v V /\ edge dag u v) x y -> forall i j, in_layer g i x -> in_layer g j y -> i < j).
    { intros x y H. apply clos_trans_tn1 in H. induction H as [y (A & B & E)|y z (A & B & E) H IH]; intros i j Hi Hj.
      - exact (go_edge _ _ _ G x y i j A E Hi Hj).
      - pose proof A as A'. apply (go_cover _ _ _ G) in A'. destruct A' as [k Hk]. specialize (IH i k Hi Hk).
        pose proof (go_edge _ _ _ G y z k j A E Hk Hj). lia. }
    assert (Q : forall x y, clos_trans nat (fun u v => In u V /\ In v V /\ edge dag u v) x y -> In x V) by (intros x y H; induction H as [x y (A & _)|]; auto).
    assert (Hu : In u V) by (eapply Q; eauto).
    apply (go_cover _ _ _ G) in Hu. destruct Hu as [i Hi]. specialize (K u u C i i Hi Hi). lia.
  Qed.
End Proof.

Lemma tg_correct it V dag indeg zero : iter_ok it -> tg_input V dag indeg zero ->
  (topological_generations it dag indeg zero = Ok None /\ cyclic V dag) \/
  (exists g, topological_generations it dag indeg zero = Ok (Some g) /\ generations_ok V dag g).
Proof.
  intros HI [A B C D E]. unfold topological_generations. apply (loop_ok it V dag HI A B _ (fun _ => false)); [|right; lia].
  assert (R0 : forall v l, NoDup l -> (forall u, In u l <-> In u V /\ edge dag u v) -> length l = rk V dag (fun _ => false) v).
  { intros v l L1 L2. unfold rk. apply Permutation_length, NoDup_Permutation; auto; [apply NoDup_filter; auto|].
    intros u. rewrite L2, preds_In, eb_edge. tauto. }
  constructor; try discriminate.
  - intros v k. rewrite D. split.
    + intros (K1 & K2 & l & L1 & L2 & K3). rewrite (R0 v l L1 L2) in K3. split; auto. split; [lia|auto].
    + intros (K1 & K2 & K3). split; auto. split; [lia|]. exists (preds V dag (fun _ => false) v).
      split; [apply NoDup_filter; auto|]. split; [|auto]. intros u. rewrite preds_In, eb_edge. tauto.
  - intros v. rewrite E, rk_0. split; intros (K1 & K2); split; auto.
    + split; auto. intros u U1 U2. exfalso. apply eb_edge in U2. eapply K2; eauto.
    + intros u U1 U2. destruct K2 as [K2 _]. apply eb_edge in U2. specialize (K2 u U1 U2). discriminate.
  - intros v. split; [discriminate|]. intros [i (l & K & _)]. destruct i; discriminate.
  - intros i j n (l & K & _). destruct i; discriminate.
  - intros i l K. destruct i; discriminate.
  - intros u v i _ _ (l & K & _). destruct i; discriminate.
  - intros v i (l & K & _). destruct i; discriminate.
Qed.
