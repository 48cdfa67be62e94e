(** The loop of _compute_p_matrix finds a matrix P whenever there is one, with
    the smallest stages. *)
From Coq Require Import Arith ZArith List Bool Lia Permutation.
From Verif Require Import NSet Pattern OpenGraph TopGen Linalg LinalgThm GPFlow GPLin GPAlg.
Import ListNotations.

(** * Positions in a list *)
Lemma pos_lt v l : In v l -> pos v l < length l.
Proof. induction l; simpl; [tauto|]. intros H. destruct (Nat.eqb_spec a v); [lia|]. destruct H; [congruence|]. specialize (IHl H). lia. Qed.
Lemma nth_pos v l d : In v l -> nth (pos v l) l d = v.
Proof. induction l; simpl; [tauto|]. intros H. destruct (Nat.eqb_spec a v); auto. destruct H; [congruence|]. auto. Qed.
Lemma pos_nth l i d : NoDup l -> i < length l -> pos (nth i l d) l = i.
Proof.
  intros ND. revert i; induction l; intros i Hi; simpl in *; [lia|]. inversion ND; subst. destruct i; [rewrite Nat.eqb_refl; auto|].
  destruct (Nat.eqb_spec a (nth i l d)); [exfalso; apply H1; subst; apply nth_In; lia|]. rewrite IHl; auto. lia.
Qed.
Lemma pos_inj l u v : In u l -> In v l -> pos u l = pos v l -> u = v.
Proof. intros Hu Hv E. rewrite <- (nth_pos u l 0 Hu), <- (nth_pos v l 0 Hv), E. auto. Qed.

Section Loop.
  Variables (it : iter) (no optim : list nat) (d : nat) (K0 : list (list bool)).
  Notation n_no := (length no).
  Notation q := (length optim).
  Notation o := (d + n_no).
  Notation W := (d + n_no + q).
  Hypothesis Hit : iter_ok it.
  Hypothesis ND : NoDup no.
  Hypothesis NDo : NoDup optim.
  Hypothesis Sub : forall v, In v optim -> In v no.
  Hypothesis K0sh : shaped q W K0.
  Hypothesis K0id : forall k k', k < q -> k' < q -> ent K0 k (o + k') = delta k k'.
  Notation kinv := (kinv d n_no q K0).
  Notation eqs := (eqs d q K0).

  Definition liveof (solved : nset) (k : nat) : bool := negb (mem (nth k optim 0) solved).
  Lemma kinv_ext live live' K : (forall k, k < q -> live k = live' k) -> kinv live K -> kinv live' K.
  Proof.
    intros H [[A B C] S E]. split; [split|..]; auto.
    - intros i k Hi Hk. rewrite <- H by auto. eauto.
    - intros t Ht. apply S. intros k Hk. rewrite H by auto. auto.
  Qed.
  Lemma eqs_mono (live live' : nat -> bool) j x : (forall k, k < q -> live' k = true -> live k = true) -> eqs live j x -> eqs live' j x.
  Proof. intros H E k Hk Hl. apply E; auto. Qed.
  Lemma eqs_x live j x y : (forall i, i < d -> x i = y i) -> eqs live j x -> eqs live j y.
  Proof. intros H E k Hk Hl. rewrite <- E by auto. apply mv_ext. intros; symmetry; auto. Qed.

  Lemma kls_fold l : forall live K, NoDup l -> kinv live K -> (forall k, k < q -> In (nth k optim 0) l -> live k = true) ->
    exists K', rfold (update_kls optim d n_no q K0) l K = Ok K' /\ kinv (fun k => live k && negb (lmem (nth k optim 0) l)) K'.
  Proof.
    induction l as [|v l IH]; intros live K NDl HK Hl; cbn [rfold].
    - exists K. split; auto. eapply kinv_ext; [|exact HK]. intros. simpl. rewrite andb_true_r. auto.
    - inversion NDl as [|? ? N1 N2]; subst. destruct (lmem v optim) eqn:Ev.
      + assert (Iv := Ev). rewrite lmem_In in Iv.
        destruct (update_kls_ok d n_no q K0 K0sh K0id optim eq_refl live K v HK Ev (pos_lt _ _ Iv)) as (K1 & E1 & HK1).
        { apply Hl; [apply pos_lt; auto|]. rewrite nth_pos by auto. left; auto. }
        destruct (IH _ K1 N2 HK1) as (K2 & E2 & HK2).
        { intros k Hk I. rewrite (Hl k Hk (or_intror I)). cbn. apply negb_true_iff, Nat.eqb_neq. intros ->. rewrite nth_pos in I by auto. contradiction. }
        exists K2. rewrite E1. cbn [rbind]. split; auto. eapply kinv_ext; [|exact HK2]. intros k Hk. cbn. rewrite <- andb_assoc, <- negb_orb. do 2 f_equal.
        unfold lmem. cbn [existsb]. f_equal. apply eq_true_iff_eq. rewrite !Nat.eqb_eq. split.
        * intros ->. apply nth_pos; auto.
        * intros <-. symmetry. apply pos_nth; auto.
      + destruct (IH live K N2 HK) as (K2 & E2 & HK2). { intros k Hk I. apply Hl; auto. right; auto. }
        exists K2. unfold update_kls at 1. rewrite Ev. cbn [negb rbind]. split; auto. eapply kinv_ext; [|exact HK2].
        intros k Hk. cbn. do 2 f_equal. unfold lmem. cbn [existsb]. destruct (Nat.eqb_spec (nth k optim 0) v) as [E|E]; auto.
        exfalso. assert (lmem v optim = true); [|congruence]. apply lmem_In. rewrite <- E. apply nth_In. auto.
  Qed.
  Lemma p_fold kls l : forall P, shaped d n_no P -> NoDup l -> (forall v, In v l -> In v no) ->
    let P' := fold_left (update_p no d q kls) l P in
    shaped d n_no P' /\ forall i j, i < d -> j < n_no -> ent P' i j = if lmem (nth j no 0) l then nth i (solution d q kls j) false else ent P i j.
  Proof.
    induction l as [|v l IH]; intros P HP NDl Hl; cbn [fold_left]; [simpl; auto|]. inversion NDl as [|? ? N1 N2]; subst.
    assert (Iv : In v no) by (apply Hl; left; auto). assert (Hp := pos_lt _ _ Iv).
    set (P1 := update_p no d q kls P v).
    assert (Hrl : forall i, i < d -> length (row P i) = n_no) by (intros; apply (shaped_row d n_no); auto).
    assert (HP1 : shaped d n_no P1).
    { unfold P1, update_p. split; [unfold tab; rewrite map_length, seq_length; auto|]. intros r Hr. unfold tab in Hr. apply in_map_iff in Hr.
      destruct Hr as (i & <- & Hi). apply in_seq in Hi. rewrite updb_length. apply Hrl. lia. }
    destruct (IH P1 HP1 N2 (fun w Hw => Hl w (or_intror Hw))) as [A B]. split; auto. intros i j Hi Hj. rewrite B by auto.
    assert (E1 : ent P1 i j = if (nth j no 0 =? v)%nat then nth i (solution d q kls j) false else ent P i j).
    { unfold P1, update_p, ent at 1. rewrite nth_tab by auto. rewrite nth_updb by (rewrite Hrl; auto).
      destruct (Nat.eqb_spec j (pos v no)) as [E|E].
      - subst j. rewrite nth_pos, Nat.eqb_refl by auto. auto.
      - destruct (Nat.eqb_spec (nth j no 0) v) as [E'|E']; auto. exfalso. apply E. rewrite <- E'. symmetry. apply pos_nth; auto. }
    rewrite E1. unfold lmem. cbn [existsb]. destruct (Nat.eqb_spec (nth j no 0) v) as [E|E]; auto. simpl.
    replace (existsb (Nat.eqb (nth j no 0)) l) with false; auto. symmetry. apply not_true_iff_false. intros K. apply existsb_exists in K.
    destruct K as (x & Hx & K). apply Nat.eqb_eq in K. subst x. rewrite E in Hx. contradiction.
  Qed.

  Definition col (P : list (list bool)) (j i : nat) : bool := ent P i j.
  (** a family of columns [x] with stages [lay]: the column of [v] satisfies the
      equations of the nodes whose stage is not smaller than that of [v] *)
  Definition staged (x : nat -> nat -> bool) (lay : nat -> nat) : Prop :=
    forall j, j < n_no -> eqs (fun k => (lay (nth j no 0) <=? lay (nth k optim 0))%nat) j (x j).
  Record linv (s : nat) (solved : nset) (kls P : list (list bool)) (lay : nat -> nat) : Prop := {
    l_sub : forall v, mem v solved = true -> In v no;
    l_k : kinv (liveof solved) kls;
    l_P : shaped d n_no P;
    l_lay : forall v, In v no -> if mem v solved then lay v < s else lay v = s;
    l_eq : forall j, j < n_no -> mem (nth j no 0) solved = true -> eqs (fun k => (lay (nth j no 0) <=? lay (nth k optim 0))%nat) j (col P j);
    l_min : forall x lay', staged x lay' -> forall v, In v no -> lay v <= lay' v }.
  Lemma solvable_spec solved kls v : kinv (liveof solved) kls ->
    (mem v (solvable_nodes no d kls solved) = true <-> In v no /\ mem v solved = false /\ exists x, eqs (liveof solved) (pos v no) x).
  Proof.
    intros HK. unfold solvable_nodes. rewrite mem_of_list, filter_In, andb_true_iff, negb_true_iff. split.
    - intros (A & B & C). split; [auto|]. split; [auto|]. destruct (test_spec d n_no q K0 (liveof solved) kls (pos v no) HK (pos_lt _ _ A)) as [T _]. apply T, C.
    - intros (A & B & C). split; [auto|]. split; [auto|]. destruct (test_spec d n_no q K0 (liveof solved) kls (pos v no) HK (pos_lt _ _ A)) as [T _]. apply T, C.
  Qed.
  Definition unsolved (solved : nset) : list nat := filter (fun v => negb (mem v solved)) no.
  Lemma p_loop_spec fuel : forall s solved kls P lay, linv s solved kls P lay -> length (unsolved solved) < fuel ->
    (exists P' lay', p_loop it no optim d q K0 fuel solved kls P = Ok (Some P') /\ shaped d n_no P' /\ staged (col P') lay' /\
       forall x l, staged x l -> forall v, In v no -> lay' v <= l v) \/
    (p_loop it no optim d q K0 fuel solved kls P = Ok None /\ forall x l, ~ staged x l).
  Proof.
    induction fuel; intros s solved kls P lay HL Hf; [lia|]. cbn [p_loop].
    destruct (seqb solved (of_list no)) eqn:Es.
    { left. exists P, lay. split; auto. split; [apply HL|]. split; [|apply HL].
      intros j Hj. apply (l_eq _ _ _ _ _ HL); auto. rewrite seqb_spec in Es. rewrite Es. apply mem_of_list, nth_In. auto. }
    assert (Hex : exists v, In v no /\ mem v solved = false).
    { destruct (unsolved solved) as [|v l] eqn:E.
      - exfalso. apply not_true_iff_false in Es. apply Es. apply seqb_spec. intros n. apply eq_true_iff_eq. rewrite mem_of_list. split; [apply (l_sub _ _ _ _ _ HL)|].
        intros Hn. destruct (mem n solved) eqn:En; auto. assert (In n (unsolved solved)); [|rewrite E in H; destruct H].
        apply filter_In. rewrite En. auto.
      - exists v. assert (I : In v (unsolved solved)) by (rewrite E; left; auto). apply filter_In in I. rewrite negb_true_iff in I. auto. }
    assert (HSv := fun v => solvable_spec solved kls v (l_k _ _ _ _ _ HL)).
    set (S0 := solvable_nodes no d kls solved) in *.
    (* a staged family makes an unsolved node with minimal stage solvable *)
    assert (Hstar : forall x l v, staged x l -> In v no -> mem v solved = false -> (forall w, In w no -> mem w solved = false -> l v <= l w) -> mem v S0 = true).
    { intros x l v Hx Iv Uv Hm. apply HSv. split; auto. split; auto. exists (x (pos v no)). eapply eqs_mono; [|apply Hx; apply pos_lt; auto].
      intros k Hk Hl. cbn. rewrite nth_pos by auto. apply Nat.leb_le. apply Hm; [apply Sub, nth_In; auto|]. unfold liveof in Hl. apply negb_true_iff in Hl. auto. }
    destruct (is_empty S0) eqn:E0.
    { right. split; auto. intros x l Hx.
      assert (G : forall b w, In w no -> mem w solved = false -> l w <= b -> False).
      { induction b; intros w Iw Uw Hb.
        - assert (mem w S0 = true) by (apply (Hstar x l); auto; intros; lia). rewrite (is_empty_mem _ E0) in H. discriminate.
        - destruct (existsb (fun w' => negb (mem w' solved) && (l w' <=? b)%nat) no) eqn:Eb.
          + apply existsb_exists in Eb. destruct Eb as (w' & Iw' & Eb). rewrite andb_true_iff, negb_true_iff, Nat.leb_le in Eb. apply (IHb w'); tauto.
          + assert (mem w S0 = true); [|rewrite (is_empty_mem _ E0) in H; discriminate].
            apply (Hstar x l); auto. intros w' Iw' Uw'. destruct (Nat.le_gt_cases (l w') b); [|lia]. exfalso. apply not_true_iff_false in Eb. apply Eb, existsb_exists.
            exists w'. rewrite Uw'. split; auto. apply Nat.leb_le; auto. }
      destruct Hex as (v & Iv & Uv). eapply G; eauto. }
    (* one stage *)
    assert (NDi : NoDup (it S0)) by (apply iter_NoDup; auto).
    assert (Isub : forall v, In v (it S0) -> In v no) by (intros v Hv; apply iter_In in Hv; auto; apply HSv in Hv; tauto).
    destruct (p_fold kls (it S0) P (l_P _ _ _ _ _ HL) NDi Isub) as [HP' EP].
    set (P' := fold_left (update_p no d q kls) (it S0) P) in *.
    destruct (kls_fold (it S0) (liveof solved) kls NDi (l_k _ _ _ _ _ HL)) as (kls' & Ek & HK').
    { intros k Hk I. apply iter_In in I; auto. apply HSv in I. destruct I as (_ & I & _). unfold liveof. rewrite I. auto. }
    rewrite Ek. cbn [rbind].
    assert (Hlm : forall v, lmem v (it S0) = mem v S0). { intros v. apply eq_true_iff_eq. rewrite lmem_In, iter_In by auto. tauto. }
    set (lay1 := fun v => if mem v (sunion solved S0) then lay v else S s).
    assert (HS0 : forall v, mem v S0 = true -> In v no /\ mem v solved = false) by (intros v Hv; apply HSv in Hv; tauto).
    assert (Hlay1 : forall v, In v no -> lay v <= lay1 v /\ lay1 v <= S s /\ (mem v solved = true -> lay1 v < s) /\ (mem v S0 = true -> lay1 v = s) /\ (mem v solved = false -> mem v S0 = false -> lay1 v = S s)).
    { intros v Iv. unfold lay1. rewrite mem_sunion. assert (L := l_lay _ _ _ _ _ HL v Iv). destruct (mem v solved) eqn:E1; cbn [orb].
      - split; [lia|]. split; [lia|]. split; [auto|]. split; [|discriminate]. intros E2. apply HS0 in E2. destruct E2; congruence.
      - destruct (mem v S0) eqn:E2; repeat split; try discriminate; auto; lia. }
    apply (IHfuel (S s) (sunion solved S0) kls' P' lay1).
    - split.
      + intros v. rewrite mem_sunion, orb_true_iff. intros [H|H]; [apply (l_sub _ _ _ _ _ HL); auto|apply HS0 in H; tauto].
      + eapply kinv_ext; [|exact HK']. intros k Hk. cbn. unfold liveof. rewrite Hlm, mem_sunion, negb_orb. auto.
      + auto.
      + intros v Iv. destruct (Hlay1 v Iv) as (A & B & C & D & F). rewrite mem_sunion. destruct (mem v solved) eqn:E1; cbn [orb]; [specialize (C eq_refl); lia|].
        destruct (mem v S0) eqn:E2; [rewrite D; auto; lia|auto].
      + intros j Hj Hs. assert (Iv : In (nth j no 0) no) by (apply nth_In; auto). destruct (Hlay1 _ Iv) as (A & B & C & D & F).
        destruct (mem (nth j no 0) S0) eqn:E2.
        * destruct (HS0 _ E2) as [_ U]. destruct (test_spec d n_no q K0 (liveof solved) kls j (l_k _ _ _ _ _ HL) Hj) as [T1 T2].
          assert (Ht : test d kls j = true). { apply T1. apply HSv in E2. rewrite pos_nth in E2 by auto. tauto. }
          destruct (T2 Ht) as [_ Q]. eapply eqs_x; [|eapply eqs_mono; [|exact Q]].
          -- intros i Hi. unfold col. rewrite EP, Hlm, E2 by auto. auto.
          -- intros k Hk Hle. cbn in Hle. apply Nat.leb_le in Hle. rewrite D in Hle by auto. unfold liveof. apply negb_true_iff.
             destruct (mem (nth k optim 0) solved) eqn:E3; auto. exfalso. assert (Ik : In (nth k optim 0) no) by (apply Sub, nth_In; auto).
             destruct (Hlay1 _ Ik) as (_ & _ & C' & _). specialize (C' E3). lia.
        * assert (U : mem (nth j no 0) solved = true) by (rewrite mem_sunion, E2, orb_false_r in Hs; auto).
          eapply eqs_x; [|eapply eqs_mono; [|apply (l_eq _ _ _ _ _ HL j Hj U)]].
          -- intros i Hi. unfold col. rewrite EP, Hlm, E2 by auto. auto.
          -- intros k Hk Hle. cbn in *. apply Nat.leb_le in Hle. apply Nat.leb_le.
             assert (Ik : In (nth k optim 0) no) by (apply Sub, nth_In; auto). 
             assert (Lk := l_lay _ _ _ _ _ HL _ Ik). assert (Lj := l_lay _ _ _ _ _ HL _ Iv). rewrite U in Lj.
             unfold lay1 in Hle at 1. rewrite mem_sunion, U in Hle. cbn [orb] in Hle.
             destruct (mem (nth k optim 0) solved) eqn:E3; [|lia]. unfold lay1 in Hle. rewrite mem_sunion, E3 in Hle. auto.
      + intros x l Hx v Iv. assert (Hm := l_min _ _ _ _ _ HL x l Hx). destruct (Hlay1 v Iv) as (A & B & C & D & F).
        assert (L := l_lay _ _ _ _ _ HL v Iv). destruct (mem v solved) eqn:E1.
        * unfold lay1. rewrite mem_sunion, E1. apply Hm; auto.
        * destruct (mem v S0) eqn:E2; [rewrite D by auto; rewrite <- L; apply Hm; auto|]. rewrite F by auto.
          assert (Hv := Hm v Iv). destruct (Nat.eq_dec (l v) s) as [E|E]; [|lia]. exfalso.
          assert (mem v S0 = true); [|congruence]. apply (Hstar x l); auto. intros w Iw Uw. rewrite E.
          assert (Lw := l_lay _ _ _ _ _ HL w Iw). rewrite Uw in Lw. rewrite <- Lw. apply Hm; auto.
    - assert (exists v, mem v S0 = true) as (v & Hv).
      { destruct (elems S0) as [|v l] eqn:E; [exfalso; apply is_empty_false in E0; apply E0; apply nset_ext; intros n; rewrite mem_empty;
          apply not_true_iff_false; intros K; apply elems_spec in K; rewrite E in K; destruct K|]. exists v. apply elems_spec. rewrite E. left; auto. }
      assert (length (unsolved (sunion solved S0)) < length (unsolved solved)); [|lia].
      destruct (HS0 v Hv) as [Iv Uv]. unfold unsolved. clearbody S0. clear -Iv Uv Hv.
      assert (G : forall l, length (filter (fun v => negb (mem v (sunion solved S0))) l) <= length (filter (fun v => negb (mem v solved)) l)).
      { induction l as [|a l IH]; simpl; auto. rewrite mem_sunion. destruct (mem a solved), (mem a S0); simpl; lia. }
      revert Iv. induction no as [|a l IH]; [intros []|]. intros [->|I]; simpl.
      + rewrite mem_sunion, Uv, Hv. simpl. specialize (G l). lia.
      + specialize (IH I). rewrite mem_sunion. destruct (mem a solved), (mem a S0); simpl; lia.
  Qed.
  Lemma p_loop_correct : 
    let r := p_loop it no optim d q K0 (S n_no) sempty (mdata (gauss_elimination d (Mat q W K0))) (tab d (fun _ => tab n_no (fun _ => false))) in
    (exists P' lay', r = Ok (Some P') /\ shaped d n_no P' /\ staged (col P') lay' /\
       forall x l, staged x l -> forall v, In v no -> lay' v <= l v) \/
    (r = Ok None /\ forall x l, ~ staged x l).
  Proof.
    apply (p_loop_spec (S n_no) 0 sempty _ _ (fun _ => 0)).
    - split.
      + intros v. rewrite mem_empty. discriminate.
      + eapply kinv_ext; [|apply kinv_init; auto]. intros k Hk. unfold liveof. rewrite mem_empty. auto.
      + apply shaped_tab.
      + intros v _. rewrite mem_empty. auto.
      + intros j _. rewrite mem_empty. discriminate.
      + intros. lia.
    - unfold unsolved. assert (G : forall (f : nat -> bool) l, length (filter f l) <= length l).
      { induction l; simpl; auto. destruct (f a); simpl; lia. } specialize (G (fun v => negb (mem v sempty)) no). lia.
  Qed.
End Loop.
