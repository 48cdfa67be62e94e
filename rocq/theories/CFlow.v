(** Model of graphix/flow/_find_cflow.py, soundness, completeness and optimality. *)
From Coq Require Import Reals Arith List Bool Lia Permutation.
From Verif Require Import Cplx Mat2 NSet Fundamentals CliffordDb Clifford Measure Pattern OpenGraph FlowSpec Flow FlowWF TopGen.
Import ListNotations.

(** * The model *)
(** _find_cflow.py:69-76 one corrector candidate.  State: correction function,
    current layer (equal to corrected_nodes_new), new correctors *)
Definition fc_cand (og : opengraph) (noncorr : nset) (st : dict nset * nset * nset) (p : nat) : res (dict nset * nset * nset) :=
  do nb <- og_neighbors og (sing p);
  match elems (sinter nb noncorr) with
  | [q] => Ok (dset (fst (fst st)) q (sing p), sadd q (snd (fst st)), sadd p (snd st))
  | _ => Ok st
  end.
(** _find_cflow.py:58-80 the while loop, with fuel *)
Fixpoint fc_loop (it : iter) (og : opengraph) (fuel : nat) (corrected cands : nset) (cf : dict nset) (layers : list nset) : res (option pflow) :=
  if seqb corrected (og_nodes og) then Ok (Some (PF og cf layers))
  else match fuel with
       | 0 => Err EFuel
       | S fuel =>
           do st <- rfold (fc_cand og (sdiff (og_nodes og) corrected)) (it cands) (cf, sempty, sempty);
           let '(cf, layer, correctors) := st in
           if is_empty layer then Ok None
           else fc_loop it og fuel (sunion corrected layer)
                  (sunion (sdiff cands correctors) (sinter layer (sdiff (og_nodes og) (of_list (og_in og))))) cf (layers ++ [layer])
       end.
(** _find_cflow.py:45-47 *)
Fixpoint all_XY (ms : dict measurement) : res bool :=
  match ms with
  | [] => Ok true
  | (_, m) :: ms => do p <- mplane m; match p with PXY => all_XY ms | _ => Ok false end
  end.
(** _find_cflow.py:22-82 find_cflow, opengraph.py:463-488 to_causalflow_or_none *)
Definition find_cflow (it : iter) (og : opengraph) : res (option pflow) :=
  do b <- all_XY (og_meas og);
  if negb b then Ok None
  else let outs := of_list (og_out og) in
       fc_loop it og (S (length (g_nodes (og_graph og)))) outs (sdiff outs (of_list (og_in og))) [] (match og_out og with [] => [] | _ => [outs] end).
(** opengraph.py:375-403 to_causalflow *)
Definition to_causalflow (it : iter) (og : opengraph) : res pflow :=
  do f <- find_cflow it og; match f with Some f => Ok f | None => Err EOpenGraph end.

(** * Correctness *)
Section CF.
  Variables (it : iter) (og : opengraph).
  Hypothesis Hit : iter_ok it.
  Hypothesis Hog : og_ok og.
  Notation g := (og_graph og).
  Notation adj := (adjacent g).
  Definition node n := In n (g_nodes g).
  (** [q] is the only neighbour of [p] in [nc] *)
  Definition only (nc : nset) (p q : nat) : Prop := adj p q /\ mem q nc = true /\ forall k, adj p k -> mem k nc = true -> k = q.
  Lemma cand_fold nc : forall l cf lay cor, (forall p, In p l -> node p) -> NoDup (dkeys cf) ->
    exists cf' lay' cor', rfold (fc_cand og nc) l (cf, lay, cor) = Ok (cf', lay', cor') /\ NoDup (dkeys cf') /\
      (forall q, mem q lay' = true <-> mem q lay = true \/ exists p, In p l /\ only nc p q) /\
      (forall p, mem p cor' = true <-> mem p cor = true \/ (In p l /\ exists q, only nc p q)) /\
      (forall q, dget cf' q = dget cf q /\ (forall p, In p l -> ~ only nc p q) \/ exists p, dget cf' q = Some (sing p) /\ In p l /\ only nc p q).
  Proof.
    induction l as [|p l IH]; intros cf lay cor Hl ND; cbn [rfold].
    - exists cf, lay, cor. split; auto. split; auto. split; [|split].
      + intros q. split; auto. intros [?|(p & [] & _)]; auto.
      + intros p. simpl. tauto.
      + intros q. left. split; auto.
    - unfold fc_cand at 1. destruct (og_neighbors_spec og (sing p)) as (nb & -> & NB).
      { intros n Hn. rewrite mem_sing in Hn. apply Nat.eqb_eq in Hn. subst. apply Hl. left; auto. }
      cbn [rbind].
      assert (NB' : forall k, In k (elems (sinter nb nc)) <-> adj p k /\ mem k nc = true).
      { intros k. rewrite elems_spec, mem_sinter, andb_true_iff, NB. split.
        - intros [(u & U1 & U2) K]. rewrite mem_sing in U1. apply Nat.eqb_eq in U1. subst u. auto.
        - intros [K1 K2]. split; auto. exists p. rewrite mem_sing, Nat.eqb_refl. auto. }
      assert (Hl' : forall p, In p l -> node p) by (intros; apply Hl; right; auto).
      destruct (elems (sinter nb nc)) as [|q [|q' r]] eqn:EE.
      + destruct (IH cf lay cor Hl' ND) as (cf' & lay' & cor' & E & N & A1 & A2 & A3). exists cf', lay', cor'.
        assert (NO : forall q, ~ only nc p q) by (intros q (K1 & K2 & _); destruct (proj2 (NB' q)); auto).
        split; auto. split; auto. split; [|split].
        * intros q. rewrite A1. split; (intros [K|(a & K1 & K2)]; [auto|right]); [exists a; split; [right|]; auto|].
          destruct K1 as [<-|K1]; [exfalso; apply (NO q K2)|eauto].
        * intros a. rewrite A2. split; (intros [K|(K1 & q & K2)]; [auto|right]); [split; [right; auto|eauto]|].
          destruct K1 as [<-|K1]; [exfalso; apply (NO q K2)|eauto].
        * intros q. destruct (A3 q) as [[K1 K2]|(a & K1 & K2 & K3)]; [left|right].
          -- split; auto. intros a [<-|Ha]; auto.
          -- exists a. split; auto. split; [right|]; auto.
      + assert (ON : only nc p q).
        { destruct (proj1 (NB' q) (or_introl eq_refl)) as [K1 K2]. split; auto. split; auto. intros k Q1 Q2.
          destruct (proj2 (NB' k) (conj Q1 Q2)) as [<-|[]]; auto. }
        assert (OU : forall q', only nc p q' -> q' = q) by (intros q' (Q1 & Q2 & _); apply ON; auto).
        cbn [fst snd].
        destruct (IH (dset cf q (sing p)) (sadd q lay) (sadd p cor) Hl' (dset_NoDup _ _ _ ND)) as (cf' & lay' & cor' & E & N & A1 & A2 & A3). exists cf', lay', cor'.
        split; auto. split; auto. split; [|split].
        * intros x. rewrite A1, mem_sadd, orb_true_iff, Nat.eqb_eq. split.
          -- intros [[->|K]|(a & K1 & K2)]; [right; exists p; split; [left|]; auto|auto|right; exists a; split; [right|]; auto].
          -- intros [K|(a & [<-|K1] & K2)]; [auto|left; left; apply OU; auto|right; eauto].
        * intros x. rewrite A2, mem_sadd, orb_true_iff, Nat.eqb_eq. split.
          -- intros [[->|K]|(K1 & K2)]; [right; split; [left; auto|eauto]|auto|right; split; [right|]; auto].
          -- intros [K|([<-|K1] & K2)]; auto.
        * intros x. destruct (A3 x) as [[K1 K2]|(a & K1 & K2 & K3)]; [|right; exists a; split; auto; split; [right|]; auto].
          rewrite dget_dset in K1. destruct (Nat.eqb_spec q x) as [Ex|Ex].
          -- subst x. right. exists p. split; auto. split; [left|]; auto.
          -- left. split; auto. intros a [<-|Ha] Q; [apply OU in Q; congruence|apply (K2 a Ha Q)].
      + assert (NO : forall x, ~ only nc p x).
        { intros x (K1 & K2 & K3). assert (q = x) by (apply K3; apply NB'; left; auto). assert (q' = x) by (apply K3; apply NB'; right; left; auto).
          pose proof (elems_NoDup (sinter nb nc)) as Q. rewrite EE in Q. inversion Q as [|? ? Q1 _]. apply Q1. left; congruence. }
        destruct (IH cf lay cor Hl' ND) as (cf' & lay' & cor' & E & N & A1 & A2 & A3). exists cf', lay', cor'.
        split; auto. split; auto. split; [|split].
        * intros x. rewrite A1. split; (intros [K|(a & K1 & K2)]; [auto|right]); [exists a; split; [right|]; auto|].
          destruct K1 as [<-|K1]; [exfalso; apply (NO x K2)|eauto].
        * intros a. rewrite A2. split; (intros [K|(K1 & x & K2)]; [auto|right]); [split; [right; auto|eauto]|].
          destruct K1 as [<-|K1]; [exfalso; apply (NO x K2)|eauto].
        * intros x. destruct (A3 x) as [[K1 K2]|(a & K1 & K2 & K3)]; [left|right].
          -- split; auto. intros a [<-|Ha]; auto.
          -- exists a. split; auto. split; [right|]; auto.
  Qed.

  (** the finder is as delayed as every causal flow *)
  Definition delayed (layers : list nset) : Prop :=
    forall cf' ls', causal_flow og cf' ls' -> forall a b n, in_layer layers a n -> in_layer ls' b n -> a <= b.
  Record finv (C K : nset) (cf : dict nset) (layers : list nset) : Prop := {
    fi_nd : NoDup (dkeys cf);
    fi_C : forall n, mem n C = true <-> exists i, in_layer layers i n;
    fi_node : forall n, mem n C = true -> node n;
    fi_out : forall n, In n (og_out og) -> mem n C = true;
    fi_disj : forall i j n, in_layer layers i n -> in_layer layers j n -> i = j;
    fi_ne : forall i l, nth_error layers i = Some l -> exists n, mem n l = true;
    fi_first : og_out og <> [] -> forall n, In n (og_out og) <-> in_layer layers 0 n;
    fi_K : forall p, mem p K = true -> mem p C = true /\ ~ In p (og_in og);
    fi_Kc : forall p q, mem p C = true -> ~ In p (og_in og) -> adj p q -> mem q C = false -> mem p K = true;
    fi_dom : forall i, (exists s, dget cf i = Some s) <-> mem i C = true /\ ~ In i (og_out og);
    fi_cf : forall i s, dget cf i = Some s -> exists p, s = sing p /\ ~ In p (og_in og) /\ adj i p /\ prec layers i p /\ forall k, adj p k -> k <> i -> prec layers i k;
    fi_del : forall cf' ls', causal_flow og cf' ls' -> forall b n, in_layer ls' b n -> b < length layers -> mem n C = true;
    fi_del2 : delayed layers }.

  Lemma prec_snoc layers l u v : prec layers u v -> prec (layers ++ [l]) u v.
  Proof. intros (i & j & A & B & L). exists i, j. repeat split; auto; apply in_layer_snoc; auto. Qed.
  (** a node whose successors in some causal flow are corrected gets corrected *)
  Lemma progress C K cf layers cf' ls' i : finv C K cf layers -> causal_flow og cf' ls' -> node i -> mem i C = false ->
    (forall n, prec ls' i n -> mem n C = true) -> exists p, mem p K = true /\ only (sdiff (og_nodes og) C) p i.
  Proof.
    intros F CF Ni Hi HP.
    assert (NO : ~ In i (og_out og)) by (intros Q; rewrite (fi_out _ _ _ _ F i Q) in Hi; discriminate).
    destruct (proj2 (cf_dom _ _ (cfl_cf _ _ _ CF) i) (conj Ni NO)) as (s & Hs).
    destruct (cfl_all _ _ _ CF i s Hs) as (p & S1 & S2 & S3 & S4).
    destruct (cf_img _ _ (cfl_cf _ _ _ CF) i s p Hs) as [_ Pi]; [apply S1; auto|].
    exists p. assert (M : forall k, mem k (sdiff (og_nodes og) C) = true <-> node k /\ mem k C = false).
    { intros k. rewrite mem_sdiff, andb_true_iff, negb_true_iff. unfold og_nodes. rewrite mem_of_list. tauto. }
    split.
    - apply (fi_Kc _ _ _ _ F p i); auto. apply adjacent_sym; auto.
    - split; [apply adjacent_sym; auto|]. split; [apply M; auto|]. intros k Q1 Q2. apply M in Q2. destruct Q2 as [_ Q2].
      destruct (Nat.eq_dec k i); auto. exfalso. rewrite (HP k) in Q2; [discriminate|]. apply S4; auto.
  Qed.

  Hypothesis HXY : forall n m, measured_as og n m -> mlabel m = LPlane PXY.
  Lemma loop_sound fuel : forall C K cf layers, finv C K cf layers -> length (g_nodes g) < length (elems C) + fuel ->
    (exists f, fc_loop it og fuel C K cf layers = Ok (Some f) /\ pf_og f = og /\ NoDup (dkeys (pf_cf f)) /\ causal_flow og (pf_cf f) (pf_layers f) /\ delayed (pf_layers f)) \/
    (fc_loop it og fuel C K cf layers = Ok None /\ forall cf' ls', ~ causal_flow og cf' ls').
  Proof.
    induction fuel as [|fuel IH]; intros C K cf layers F HF.
    all: assert (HC : length (elems C) <= length (g_nodes g)) by
          (apply NoDup_incl_length; [apply elems_NoDup|]; intros n Hn; apply elems_spec in Hn; apply (fi_node _ _ _ _ F n Hn)).
    - lia.
    - cbn [fc_loop]. destruct (seqb C (og_nodes og)) eqn:ES.
      + left. exists (PF og cf layers). split; auto. cbn [pf_og pf_cf pf_layers]. split; auto. split; [apply (fi_nd _ _ _ _ F)|]. split; [|apply (fi_del2 _ _ _ _ F)].
        rewrite seqb_spec in ES. assert (CN : forall n, mem n C = true <-> node n) by (intros n; rewrite ES; unfold og_nodes; rewrite mem_of_list; tauto).
        constructor.
        * constructor.
          -- intros n. rewrite <- (fi_C _ _ _ _ F). symmetry. apply CN.
          -- apply (fi_disj _ _ _ _ F).
          -- apply (fi_ne _ _ _ _ F).
          -- apply (fi_first _ _ _ _ F).
        * constructor.
          -- intros i. rewrite (fi_dom _ _ _ _ F), CN. tauto.
          -- intros i s j Hs Hj. destruct (fi_cf _ _ _ _ F i s Hs) as (p & -> & P1 & P2 & _). rewrite mem_sing in Hj. apply Nat.eqb_eq in Hj. subst j.
             split; auto. apply (adjacent_nodes g i p (ok_graph _ Hog) P2).
        * intros i s Hs. assert (Q : mem i C = true /\ ~ In i (og_out og)) by (apply (fi_dom _ _ _ _ F); eauto). destruct Q as [Q1 Q2]. apply CN in Q1.
          assert (Mi : In i (dkeys (og_meas og))) by (apply (proj2 (ok_meas _ Hog)); auto). apply dget_keys in Mi. destruct Mi as (m & Hm). exists m. split; auto. eapply HXY; eauto.
        * intros i s Hs. destruct (fi_cf _ _ _ _ F i s Hs) as (p & -> & P1 & P2 & P3 & P4). exists p. split; [intros k; rewrite mem_sing, Nat.eqb_eq; tauto|]. auto.
      + set (nc := sdiff (og_nodes og) C).
        assert (M : forall k, mem k nc = true <-> node k /\ mem k C = false).
        { intros k. unfold nc. rewrite mem_sdiff, andb_true_iff, negb_true_iff. unfold og_nodes. rewrite mem_of_list. tauto. }
        destruct (cand_fold nc (it K) cf sempty sempty) as (cf1 & lay & cor & E & N1 & A1 & A2 & A3).
        { intros p Hp. apply iter_In in Hp; auto. apply (fi_K _ _ _ _ F) in Hp. destruct Hp as [Hp _]. apply (fi_node _ _ _ _ F p Hp). }
        { apply (fi_nd _ _ _ _ F). }
        rewrite E. cbn [rbind].
        assert (L1 : forall q, mem q lay = true <-> exists p, mem p K = true /\ only nc p q).
        { intros q. rewrite A1, mem_empty. split.
          - intros [?|(p & P1 & P2)]; [discriminate|]. apply iter_In in P1; eauto.
          - intros (p & P1 & P2). right. exists p. rewrite iter_In; auto. }
        assert (L2 : forall p, mem p cor = true <-> mem p K = true /\ exists q, only nc p q).
        { intros p. rewrite A2, mem_empty, iter_In by auto. intuition discriminate. }
        assert (LN : forall q, mem q lay = true -> node q /\ mem q C = false).
        { intros q Hq. apply L1 in Hq. destruct Hq as (p & _ & (_ & Q & _)). apply M; auto. }
        destruct (is_empty lay) eqn:EL.
        * right. split; auto. intros cf' ls' CF.
          (* some node is not corrected: take the latest one *)
          assert (X : exists i, node i /\ mem i C = false).
          { destruct (filter (fun n => negb (mem n C)) (g_nodes g)) as [|i r] eqn:EFi.
            - exfalso. apply not_true_iff_false in ES. apply ES, seqb_spec. intros n. apply eq_true_iff_eq. unfold og_nodes. rewrite mem_of_list. split; [apply (fi_node _ _ _ _ F)|].
              intros Hn. destruct (mem n C) eqn:Q; auto. assert (Y : In n (filter (fun n => negb (mem n C)) (g_nodes g))) by (apply filter_In; rewrite Q; auto). rewrite EFi in Y. destruct Y.
            - exists i. assert (Y : In i (filter (fun n => negb (mem n C)) (g_nodes g))) by (rewrite EFi; left; auto). apply filter_In in Y. rewrite negb_true_iff in Y. auto. }
          assert (Y : forall b i, node i -> mem i C = false -> in_layer ls' b i -> False).
          { induction b as [b IHb] using lt_wf_ind. intros i Ni Ci Hb.
            destruct (progress C K cf layers cf' ls' i F CF Ni Ci) as (p & P1 & P2).
            - intros n (i' & j & B1 & B2 & B3). pose proof (ord_disj _ _ (cfl_order _ _ _ CF) _ _ _ Hb B1). subst i'.
              destruct (mem n C) eqn:Q; auto. exfalso. apply (IHb j B3 n); auto. apply (ord_cover _ _ (cfl_order _ _ _ CF)). eauto.
            - assert (Z : mem i lay = true) by (apply L1; eauto). rewrite (is_empty_mem _ EL) in Z. discriminate. }
          destruct X as (i & Ni & Ci). pose proof Ni as Ni'. apply (ord_cover _ _ (cfl_order _ _ _ CF)) in Ni'. destruct Ni' as (b & Hb). apply (Y b i); auto.
        * assert (ELn : exists q, mem q lay = true).
          { destruct (elems lay) as [|a r] eqn:Q; [|exists a; apply elems_spec; rewrite Q; left; auto]. exfalso. apply is_empty_false in EL. apply EL, nset_ext.
            intros n. rewrite mem_empty. apply not_true_iff_false. rewrite <- elems_spec, Q. auto. }
          assert (CL : forall n, mem n (sunion C lay) = true <-> mem n C = true \/ mem n lay = true) by (intros n; rewrite mem_sunion, orb_true_iff; tauto).
          assert (DEL : forall cf' ls', causal_flow og cf' ls' -> forall b n, in_layer ls' b n -> b < length (layers ++ [lay]) -> mem n (sunion C lay) = true).
          { intros cf' ls' CF b n Hb Lb. rewrite app_length in Lb. simpl in Lb. apply CL. destruct (mem n C) eqn:Cn; auto. right.
            assert (Nn : node n) by (apply (ord_cover _ _ (cfl_order _ _ _ CF)); eauto).
            apply L1. apply (progress C K cf layers cf' ls' n F CF Nn Cn). intros k (i' & j & B1 & B2 & B3).
            pose proof (ord_disj _ _ (cfl_order _ _ _ CF) _ _ _ Hb B1). subst i'. apply (fi_del _ _ _ _ F cf' ls' CF j k B2). lia. }
          apply IH.
          { constructor.
            - exact N1.
            - intros n. rewrite CL, (fi_C _ _ _ _ F). split.
              + intros [[i Q]|Q]; [exists i|exists (length layers)]; apply in_layer_snoc; auto.
              + intros [i Q]. apply in_layer_snoc in Q. destruct Q as [Q|[_ Q]]; eauto.
            - intros n Q. apply CL in Q. destruct Q as [Q|Q]; [apply (fi_node _ _ _ _ F n Q)|apply LN; auto].
            - intros n Q. apply CL. left. apply (fi_out _ _ _ _ F n Q).
            - assert (X : forall i n, in_layer layers i n -> mem n lay = true -> False).
              { intros i n Q1 Q2. apply LN in Q2. destruct Q2 as [_ Q2]. assert (Q3 : mem n C = true) by (apply (fi_C _ _ _ _ F); eauto). congruence. }
              intros i j n Q1 Q2. apply in_layer_snoc in Q1, Q2. destruct Q1 as [Q1|[-> Q1]], Q2 as [Q2|[-> Q2]]; auto; try (exfalso; eauto; fail).
              apply (fi_disj _ _ _ _ F i j n); auto.
            - intros i l Q. destruct (lt_dec i (length layers)) as [Li|Li].
              + rewrite nth_error_app1 in Q by auto. eapply (fi_ne _ _ _ _ F); eauto.
              + rewrite nth_error_app2 in Q by lia. destruct (i - length layers) as [|z]; simpl in Q; [|destruct z; discriminate]. injection Q as <-. auto.
            - intros NO n. rewrite (fi_first _ _ _ _ F NO n), in_layer_snoc. split; auto. intros [Q|[Q1 Q2]]; auto.
              exfalso. destruct layers as [|l0 lr]; [|discriminate]. destruct (og_out og) as [|o r] eqn:EO; [congruence|].
              assert (Q : In o (og_out og)) by (rewrite EO; left; auto). rewrite EO in Q. rewrite <- EO in NO, Q. apply (fi_first _ _ _ _ F NO) in Q. destruct Q as (l & Q & _); discriminate.
            - intros p Q. rewrite mem_sunion, orb_true_iff, mem_sdiff, mem_sinter, !andb_true_iff, mem_sdiff, andb_true_iff, !negb_true_iff in Q. rewrite CL.
              destruct Q as [[Q1 Q2]|[Q1 [Q2 Q3]]].
              + apply (fi_K _ _ _ _ F) in Q1. tauto.
              + split; auto. apply not_true_iff_false in Q3. rewrite mem_of_list in Q3. auto.
            - intros p q Q1 Q2 Q3 Q4. assert (Q4' : mem q C = false /\ mem q lay = false).
              { rewrite mem_sunion in Q4. apply orb_false_iff in Q4. auto. }
              destruct Q4' as [Q5 Q6]. rewrite mem_sunion, orb_true_iff, mem_sdiff, mem_sinter, !andb_true_iff, mem_sdiff, andb_true_iff, !negb_true_iff.
              apply CL in Q1. destruct (mem p C) eqn:Cp.
              + left. assert (Kp : mem p K = true) by (apply (fi_Kc _ _ _ _ F p q); auto). split; auto. apply not_true_iff_false. intros Z. apply L2 in Z. destruct Z as (_ & q' & Z).
                assert (q = q'); [apply Z; auto; apply M; split; auto; apply (adjacent_nodes g p q (ok_graph _ Hog) Q3)|]. subst q'.
                assert (mem q lay = true) by (apply L1; eauto). congruence.
              + right. destruct Q1 as [|Q1]; [discriminate|]. split; auto. split; [unfold og_nodes; apply mem_of_list; apply LN; auto|]. apply not_true_iff_false. rewrite mem_of_list. auto.
            - intros i. rewrite CL. destruct (A3 i) as [[Z1 Z2]|(p & Z1 & Z2 & Z3)].
              + rewrite Z1, (fi_dom _ _ _ _ F). split; [tauto|]. intros [[Q|Q] Q2]; auto. exfalso. apply L1 in Q. destruct Q as (p & P1 & P2). apply (Z2 p); auto. apply iter_In; auto.
              + assert (Li : mem i lay = true) by (apply L1; exists p; rewrite iter_In in Z2; auto). split; [|rewrite Z1; eauto]. intros _. split; auto.
                intros Q. apply (fi_out _ _ _ _ F) in Q. apply LN in Li. destruct Li. congruence.
            - intros i s Hs. destruct (A3 i) as [[Z1 Z2]|(p & Z1 & Z2 & Z3)].
              + rewrite Z1 in Hs. destruct (fi_cf _ _ _ _ F i s Hs) as (p & -> & P1 & P2 & P3 & P4). exists p. split; auto. split; auto. split; auto.
                split; [apply prec_snoc; auto|]. intros k K1 K2. apply prec_snoc; auto.
              + rewrite Z1 in Hs. injection Hs as <-. exists p. split; auto. rewrite iter_In in Z2 by auto. destruct (fi_K _ _ _ _ F p Z2) as [Cp Ip]. split; auto.
                split; [apply adjacent_sym, Z3|]. assert (Li : mem i lay = true) by (apply L1; eauto).
                assert (PC : forall k, mem k C = true -> prec (layers ++ [lay]) i k).
                { intros k Ck. apply (fi_C _ _ _ _ F) in Ck. destruct Ck as (j & Hj). exists (length layers), j. split; [apply in_layer_snoc; auto|]. split; [apply in_layer_snoc; auto|]. eapply in_layer_lt; eauto. }
                split; [apply PC; auto|]. intros k K1 K2. apply PC. destruct (mem k C) eqn:Ck; auto. exfalso. apply K2. apply Z3; auto. apply M. split; auto. apply (adjacent_nodes g p k (ok_graph _ Hog) K1).
            - exact DEL.
            - intros cf' ls' CF a b n Ha Hb. apply in_layer_snoc in Ha. destruct Ha as [Ha|[-> Ha]]; [apply (fi_del2 _ _ _ _ F cf' ls' CF a b n Ha Hb)|].
              destruct (le_lt_dec (length layers) b) as [|Lb]; auto. exfalso. pose proof (fi_del _ _ _ _ F cf' ls' CF b n Hb Lb) as Q. apply LN in Ha. destruct Ha. congruence. }
          assert (LE : length (elems C) < length (elems (sunion C lay))); [|lia].
          destruct ELn as (q & Hq). assert (IQ : incl (q :: elems C) (elems (sunion C lay))).
          { intros n [<-|Hn]; apply elems_spec, CL; auto. left. apply elems_spec; auto. }
          apply NoDup_incl_length in IQ; [simpl in IQ; lia|]. constructor; [|apply elems_NoDup]. rewrite elems_spec. apply LN in Hq. destruct Hq. congruence.
  Qed.
End CF.
Lemma all_XY_spec (ms : dict measurement) : NoDup (dkeys ms) -> (forall n m, dget ms n = Some m -> exists a p, m = MBloch a p) ->
  exists b, all_XY ms = Ok b /\ (b = true <-> forall n m, dget ms n = Some m -> mlabel m = LPlane PXY).
Proof.
  induction ms as [|[k m] ms IH]; intros ND HP; cbn [all_XY].
  - exists true. split; auto. split; auto. discriminate.
  - destruct (HP k m) as (a & p & ->); [cbn; rewrite Nat.eqb_refl; auto|]. cbn [mplane rbind]. inversion ND as [|? ? N1 N2]; subst.
    destruct IH as (b & E & B); auto.
    { intros n m Hn. apply (HP n). cbn. destruct (Nat.eqb_spec k n) as [Ek|Ek]; auto. subst. exfalso. apply N1. eapply dget_is_key; eauto. }
    assert (X : p <> PXY -> exists b0, Ok false = Ok b0 /\ (b0 = true <-> forall n m, dget ((k, MBloch a p) :: ms) n = Some m -> mlabel m = LPlane PXY)).
    { intros Q. exists false. split; auto. split; [discriminate|]. intros H. specialize (H k (MBloch a p)). cbn in H. rewrite Nat.eqb_refl in H. specialize (H eq_refl). congruence. }
    destruct p; try (apply X; discriminate). exists b. split; auto. rewrite B. split.
    + intros H n m. cbn. destruct (Nat.eqb_spec k n); [intros [= <-]; auto|apply H].
    + intros H n m Hn. apply (H n). cbn. destruct (Nat.eqb_spec k n) as [Ek|Ek]; auto. subst. exfalso. apply N1. eapply dget_is_key; eauto.
Qed.
Lemma find_cflow_correct it og : iter_ok it -> og_ok og -> planar og ->
  (exists f, find_cflow it og = Ok (Some f) /\ pf_og f = og /\ NoDup (dkeys (pf_cf f)) /\ causal_flow og (pf_cf f) (pf_layers f) /\ delayed og (pf_layers f)) \/
  (find_cflow it og = Ok None /\ forall cf ls, ~ causal_flow og cf ls).
Proof.
  intros Hit Hog HP. unfold find_cflow. destruct (all_XY_spec (og_meas og) (proj1 (ok_meas _ Hog))) as (b & -> & B); [intros n m; apply HP|]. cbn [rbind].
  destruct b; cbn [negb].
  - apply loop_sound; auto.
    + intros n m. apply B; auto.
    + assert (MO : forall n, mem n (of_list (og_out og)) = true <-> In n (og_out og)) by (intros; apply mem_of_list).
      assert (IL : forall i n, in_layer (match og_out og with [] => [] | _ => [of_list (og_out og)] end) i n <-> i = 0 /\ In n (og_out og)).
      { intros i n. destruct (og_out og) as [|o r] eqn:EO.
        - split; [intros (l & Q & _); destruct i; discriminate|intros [_ []]].
        - rewrite <- (mem_of_list n (o :: r)). unfold in_layer. destruct i as [|[|i]]; cbn [nth_error].
          + split; [intros (l & [= <-] & Q); auto|intros [_ Q]; eauto].
          + split; [intros (l & Q & _); discriminate|intros [Q _]; discriminate].
          + split; [intros (l & Q & _); discriminate|intros [Q _]; discriminate]. }
      constructor.
      * constructor.
      * intros n. rewrite MO. split; [intros Q; exists 0; apply IL; auto|intros (i & Q); apply IL in Q; tauto].
      * intros n Q. apply MO in Q. apply (proj2 (ok_out _ Hog)); auto.
      * intros n. apply MO.
      * intros i j n Q1 Q2. apply IL in Q1, Q2. lia.
      * intros i l Q. destruct (og_out og) as [|o r]; [destruct i; discriminate|]. destruct i as [|i]; [|destruct i; discriminate]. injection Q as <-. exists o. apply (proj2 (mem_of_list o (o :: r))). left; auto.
      * intros _ n. rewrite IL. tauto.
      * intros p. rewrite mem_sdiff, andb_true_iff, negb_true_iff, <- not_true_iff_false, !mem_of_list. tauto.
      * intros p q Q1 Q2 _ _. rewrite mem_sdiff, andb_true_iff, negb_true_iff, <- not_true_iff_false, !mem_of_list. apply MO in Q1. auto.
      * intros i. cbn. rewrite MO. split; [intros (s & Q); discriminate|tauto].
      * intros i s Q. discriminate.
      * intros cf' ls' CF b' n Hb Lb. apply MO. destruct (og_out og) as [|o r] eqn:EO; [simpl in Lb; lia|]. simpl in Lb. assert (b' = 0) by lia. subst b'.
        rewrite <- EO. apply (ord_first _ _ (cfl_order _ _ _ CF)); [congruence|auto].
      * intros cf' ls' CF a b' n Ha _. apply IL in Ha. lia.
    + lia.
  - right. split; auto. intros cf ls CF. assert (false = true); [|discriminate]. apply B. intros n m Hn.
    assert (Mi : In n (dkeys (og_meas og))) by (eapply dget_is_key; eauto). apply (proj2 (ok_meas _ Hog)) in Mi.
    destruct (proj2 (cf_dom _ _ (cfl_cf _ _ _ CF) n) Mi) as (s & Hs). destruct (cfl_XY _ _ _ CF n s Hs) as (m' & E1 & E2). congruence.
Qed.
