(** Correctness of the direct preparation of graph states as tensor networks. *)
From Coq Require Import Reals Lra Arith List Bool Lia Permutation FunctionalExtensionality.
From Verif Require Import Cplx Mat2 Fundamentals CliffordDb Clifford NSet Measure QState Pattern Layer Standardize NodeIndex Statevec Density Simulator OpenGraph Flow SpaceHeur TensorNet TensorThm.
Import ListNotations.
Local Open Scope C_scope.

Definition lprod {X} (l : list X) (F : X -> C) : C := fold_right (fun x c => F x * c) C1 l.
Lemma lprod_cons {X} (x : X) l F : lprod (x :: l) F = F x * lprod l F.
Proof. reflexivity. Qed.
Lemma lprod_ext {X} (l : list X) F G : (forall x, In x l -> F x = G x) -> lprod l F = lprod l G.
Proof. induction l as [|x l IH]; auto. intros H. rewrite !lprod_cons, H, IH; auto; [intros; apply H; right; auto|left; auto]. Qed.
Lemma lprod_app {X} (a b : list X) F : lprod (a ++ b) F = lprod a F * lprod b F.
Proof. unfold lprod. induction a as [|x a IH]; cbn; [ring|]. rewrite IH. ring. Qed.
Lemma lprod_upd (l : list nat) F F' n c : NoDup l -> In n l -> (forall m, m <> n -> F' m = F m) -> F' n = F n * c -> lprod l F' = lprod l F * c.
Proof.
  intros ND Hn HO HN. induction l as [|x l IH]; [destruct Hn|]. inversion ND as [|? ? N1 N2]; subst. rewrite !lprod_cons. destruct Hn as [->|Hn].
  - rewrite HN, (lprod_ext l F' F); [ring|]. intros m Hm. apply HO. intros ->; auto.
  - rewrite IH, HO by (auto; intros ->; auto). ring.
Qed.
Lemma lprod_mul {X} (l : list X) F G : lprod l (fun x => F x * G x) = lprod l F * lprod l G.
Proof. unfold lprod. induction l as [|x l IH]; cbn; [ring|]. rewrite IH. ring. Qed.

(** signs of the edges *)
Definition eprod (es : list (nat * nat)) (f : asg) : C := lprod es (fun e => sgn (f (fst e) && f (snd e))).
(** the graph state *)
Definition graph_state (nodes : list nat) (es : list (nat * nat)) : state := fun f => lprod nodes (fun _ => RtoC (/ sqrt 2)) * eprod es f.

Lemma RtoC_mul x y : RtoC (x * y) = RtoC x * RtoC y.
Proof. apply C_eq; cbn; ring. Qed.
Lemma gweight_0 : gweight 0 = (/ sqrt 2)%R.
Proof. unfold gweight. replace (INR 0 / 4 - 1 / 2)%R with (- (/ 2))%R by (cbn; field). rewrite Rpower_Ropp, Rpower_sqrt by lra. auto. Qed.
Definition q4 : R := Rpower 2 (/ 4).
Lemma gweight_S d : gweight (S d) = (gweight d * q4)%R.
Proof. unfold gweight, q4. rewrite <- Rpower_plus. f_equal. rewrite S_INR. field. Qed.
Lemma q4_q4 : (q4 * q4 = sqrt 2)%R.
Proof. unfold q4. rewrite <- Rpower_plus. replace (/ 4 + / 4)%R with (/ 2)%R by field. apply Rpower_sqrt. lra. Qed.
Lemma sqrt2_inv : (sqrt 2 * / sqrt 2 = 1)%R.
Proof. apply Rinv_r. assert (sqrt 2 * sqrt 2 = 2)%R by (apply sqrt_sqrt; lra). intros E. rewrite E in H. lra. Qed.
(** the two endpoint vectors of an edge *)
Lemma edge_vecs b x y : vget (gvec b x) false * vget (gvec (negb b) y) false + vget (gvec b x) true * vget (gvec (negb b) y) true = RtoC (/ sqrt 2) * sgn (x && y).
Proof.
  assert (E0 : cis 0 = C1) by (unfold cis; rewrite Rmult_0_l, cos_0, sin_0; reflexivity).
  assert (E1 : cis 1 = - C1) by (unfold cis; rewrite Rmult_1_l, cos_PI, sin_PI; apply C_eq; cbn; ring).
  assert (H1 : (1 * PI / 2 = PI / 2)%R) by field. assert (H0 : (0 * PI / 2 = 0)%R) by field.
  destruct b, x, y; unfold gvec, planar_state; cbn [negb andb sgn b2R vget v0 v1]; rewrite ?E0, ?E1, ?H0, ?H1, ?cos_PI2, ?sin_PI2, ?cos_0, ?sin_0; apply C_eq; cbn; ring.
Qed.

Section Graph.
Variable nodes : list nat.
Hypothesis NDn : NoDup nodes.
Definition gt (s : gprep) (n : nat) (h : asg) : C := match dget (gp_d s) n with Some (i, l) => t_data (gtensor n i l) h | None => C1 end.
Definition gk (s : gprep) (n : nat) : C := match dget (gp_d s) n with Some _ => RtoC (/ sqrt 2) | None => C1 end.
Record ginv (s : gprep) (es : list (nat * nat)) : Prop := {
  gi_dang : forall n, dget (gp_dang s) n = option_map fst (dget (gp_d s) n);
  gi_in : forall n i l, dget (gp_d s) n = Some (i, l) -> In n nodes /\ (i < gp_next s)%nat;
  gi_inj : forall n m i l l', dget (gp_d s) n = Some (i, l) -> dget (gp_d s) m = Some (i, l') -> n = m;
  gi_end : forall e, In e es -> dget (gp_d s) (fst e) <> None /\ dget (gp_d s) (snd e) <> None;
  gi_sum : exists I, NoDup I
    /\ (forall e, In e I -> (e < gp_next s)%nat /\ exists n i l, dget (gp_d s) n = Some (i, l) /\ In e (map snd l))
    /\ (forall n i l, dget (gp_d s) n = Some (i, l) -> ~ In i I /\ forall e, In e (map snd l) -> In e I)
    /\ forall f g, (forall n i l, dget (gp_d s) n = Some (i, l) -> g i = f n) ->
         asum I (fun h => lprod nodes (fun n => gt s n h)) g = lprod nodes (gk s) * eprod es f }.
Lemma ginv_nil : ginv (GP [] [] 0) [].
Proof.
  constructor; try (cbn; intros; discriminate || tauto); auto. exists []. split; [constructor|]. split; [intros e []|]. split; [cbn; intros; discriminate|].
  intros f g _. cbn [asum]. unfold eprod. cbn. rewrite (lprod_ext nodes _ (gk (GP [] [] 0))); [ring|]. intros; reflexivity.
Qed.
Lemma ginv_ensure s es n : In n nodes -> ginv s es -> ginv (gp_ensure s n) es /\ dget (gp_d (gp_ensure s n)) n <> None.
Proof.
  intros Hn G. unfold gp_ensure. destruct (dget (gp_d s) n) as [[i0 l0]|] eqn:En; [split; auto; congruence|].
  cbn [gp_d gp_dang gp_next]. destruct G as [A B C D (I & ND & I1 & I2 & I3)].
  split; [|rewrite dget_dset, Nat.eqb_refl; discriminate].
  assert (DO : forall m, m <> n -> dget (dset (gp_d s) n (gp_next s, [])) m = dget (gp_d s) m) by (intros m Hm; rewrite dget_dset; destruct (Nat.eqb_spec n m); congruence).
  assert (DN : dget (dset (gp_d s) n (gp_next s, [])) n = Some (gp_next s, [])) by (rewrite dget_dset, Nat.eqb_refl; auto).
  constructor; cbn [gp_d gp_dang gp_next].
  - intros m. rewrite !dget_dset. destruct (n =? m)%nat; auto.
  - intros m i l. destruct (Nat.eq_dec m n) as [->|Ne]; [rewrite DN; intros [= <- <-]; split; auto; lia|rewrite DO by auto]. intros H. destruct (B _ _ _ H). split; auto; lia.
  - intros m m' i l l'. destruct (Nat.eq_dec m n) as [->|Ne], (Nat.eq_dec m' n) as [->|Ne']; auto; rewrite ?DN; rewrite ?DO by auto.
    + intros [= <- <-] H. apply B in H. lia.
    + intros H [= <- <-]. apply B in H. lia.
    + apply C.
  - intros e He. rewrite !dget_dset. destruct (D e He). destruct (n =? fst e)%nat, (n =? snd e)%nat; split; auto; discriminate.
  - exists I. split; auto. split; [|split].
    + intros e He. destruct (I1 e He) as (L & m & i & l & E & K). split; [lia|]. exists m, i, l. split; auto. rewrite DO; auto. intros ->; congruence.
    + intros m i l. destruct (Nat.eq_dec m n) as [->|Ne]; [rewrite DN; intros [= <- <-]|rewrite DO by auto; apply I2].
      split; [intros K; apply I1 in K; lia|intros e []].
    + intros f g H.
      rewrite (asum_ext I _ (fun h => lprod nodes (fun m => gt s m h) * RtoC (/ sqrt 2))).
      2:{ intros h. apply (lprod_upd nodes _ _ n); auto.
          - intros m Hm. unfold gt. cbn [gp_d]. rewrite DO by auto. auto.
          - unfold gt. cbn [gp_d]. rewrite DN, En. cbn [gtensor t_data length fold_right]. rewrite gweight_0. ring. }
      rewrite (asum_pull I _ _ (RtoC (/ sqrt 2))) by auto. rewrite (I3 f g).
      2:{ intros m i l E. apply (H m i l). rewrite DO; auto. intros ->; congruence. }
      rewrite (lprod_upd nodes (gk s) (gk (GP (dset (gp_d s) n (gp_next s, [])) (dset (gp_dang s) n (gp_next s)) (S (gp_next s)))) n (RtoC (/ sqrt 2))); auto; [ring| |].
      * intros m Hm. unfold gk. cbn [gp_d]. rewrite DO by auto. auto.
      * unfold gk. cbn [gp_d]. rewrite DN, En. ring.
Qed.
Lemma gdata_push n i l x h : t_data (gtensor n i (l ++ [x])) h = t_data (gtensor n i l) h * (RtoC q4 * vget (gvec (fst x) (h i)) (h (snd x))).
Proof.
  cbn [gtensor t_data]. rewrite app_length. cbn [length]. rewrite Nat.add_1_r, gweight_S, RtoC_mul.
  change (fold_right (fun x0 c => vget (gvec (fst x0) (h i)) (h (snd x0)) * c) C1 (l ++ [x])) with (lprod (l ++ [x]) (fun x => vget (gvec (fst x) (h i)) (h (snd x)))).
  rewrite lprod_app. unfold lprod. cbn [fold_right]. ring.
Qed.
Lemma gp_edge_eq s u v iu lu iv lv : let s2 := gp_ensure (gp_ensure s u) v in u <> v -> dget (gp_d s2) u = Some (iu, lu) -> dget (gp_d s2) v = Some (iv, lv) ->
  gp_edge s (u, v) = GP (dset (dset (gp_d s2) u (iu, lu ++ [((v <? u)%nat, gp_next s2)])) v (iv, lv ++ [(negb (v <? u)%nat, gp_next s2)])) (gp_dang s2) (S (gp_next s2)).
Proof.
  intros s2 Ne Eu Ev. unfold gp_edge. cbn [fst snd]. fold s2. cbv zeta. assert (P1 : forall x, gp_push s2 u x = GP (dset (gp_d s2) u (iu, lu ++ [x])) (gp_dang s2) (gp_next s2)) by (intros; unfold gp_push; rewrite Eu; auto).
  rewrite P1. unfold gp_push. cbn [gp_d gp_dang gp_next]. rewrite dget_dset. destruct (Nat.eqb_spec u v); [congruence|]. rewrite Ev. reflexivity.
Qed.
Lemma ginv_edge s es u v : In u nodes -> In v nodes -> u <> v -> ginv s es -> ginv (gp_edge s (u, v)) (es ++ [(u, v)]).
Proof.
  intros Hu Hv Ne G. pose proof (gp_edge_eq s u v) as GE. cbv zeta in GE.
  destruct (ginv_ensure s es u Hu G) as [G1 K1]. destruct (ginv_ensure _ es v Hv G1) as [G2 K2].
  assert (K1' : dget (gp_d (gp_ensure (gp_ensure s u) v)) u <> None).
  { clear - K1. unfold gp_ensure at 1. destruct (dget (gp_d (gp_ensure s u)) v); auto. cbn [gp_d]. rewrite dget_dset. destruct (v =? u)%nat; auto; discriminate. }
  set (s2 := gp_ensure (gp_ensure s u) v) in *. clearbody s2. clear G1 K1 G.
  destruct (dget (gp_d s2) u) as [[iu lu]|] eqn:Eu; [|congruence]. destruct (dget (gp_d s2) v) as [[iv lv]|] eqn:Ev; [|congruence]. clear K1' K2.
  set (gr := (v <? u)%nat). set (e := gp_next s2).
  rewrite (GE iu lu iv lv Ne eq_refl eq_refl). clear GE. fold gr e. set (d := dset (dset (gp_d s2) u (iu, lu ++ [(gr, e)])) v (iv, lv ++ [(negb gr, e)])).
  assert (Du : dget d u = Some (iu, lu ++ [(gr, e)])) by (unfold d; rewrite !dget_dset, Nat.eqb_refl; destruct (Nat.eqb_spec v u); congruence).
  assert (Dv : dget d v = Some (iv, lv ++ [(negb gr, e)])) by (unfold d; rewrite !dget_dset, Nat.eqb_refl; auto).
  assert (DO : forall m, m <> u -> m <> v -> dget d m = dget (gp_d s2) m) by (intros m H1 H2; unfold d; rewrite !dget_dset; destruct (Nat.eqb_spec v m), (Nat.eqb_spec u m); congruence).
  clearbody d. destruct G2 as [A B C D (I & ND & I1 & I2 & I3)].
  assert (CA : forall m i l, dget d m = Some (i, l) -> exists l0, dget (gp_d s2) m = Some (i, l0) /\ forall x, In x (map snd l) -> In x (map snd l0) \/ x = e).
  { intros m i l H. destruct (Nat.eq_dec m u) as [->|N1]; [rewrite Du in H|destruct (Nat.eq_dec m v) as [->|N2]; [rewrite Dv in H|rewrite DO in H by auto]].
    - injection H as <- <-. exists lu. split; auto. intros x Hx. rewrite map_app in Hx. apply in_app_or in Hx. destruct Hx as [Hx|[<-|[]]]; auto.
    - injection H as <- <-. exists lv. split; auto. intros x Hx. rewrite map_app in Hx. apply in_app_or in Hx. destruct Hx as [Hx|[<-|[]]]; auto.
    - exists l. split; auto. }
  assert (CB : forall m i l, dget (gp_d s2) m = Some (i, l) -> exists l', dget d m = Some (i, l') /\ forall x, In x (map snd l) -> In x (map snd l')).
  { intros m i l H. destruct (Nat.eq_dec m u) as [->|N1]; [|destruct (Nat.eq_dec m v) as [->|N2]].
    - rewrite Eu in H. injection H as <- <-. eexists. split; [exact Du|]. intros x Hx. rewrite map_app. apply in_or_app; auto.
    - rewrite Ev in H. injection H as <- <-. eexists. split; [exact Dv|]. intros x Hx. rewrite map_app. apply in_or_app; auto.
    - exists l. rewrite DO; auto. }
  assert (NE : ~ In e I) by (intros K; destruct (I1 e K); unfold e in *; lia).
  constructor; cbn [gp_d gp_dang gp_next].
  - intros m. rewrite A. destruct (Nat.eq_dec m u) as [->|N1]; [rewrite Du, Eu; reflexivity|]. destruct (Nat.eq_dec m v) as [->|N2]; [rewrite Dv, Ev; reflexivity|]. rewrite DO; auto.
  - intros m i l H. destruct (CA _ _ _ H) as (l0 & E & _). destruct (B _ _ _ E). split; [auto|unfold e; lia].
  - intros m m' i l l' H H'. destruct (CA _ _ _ H) as (l0 & E & _). destruct (CA _ _ _ H') as (l0' & E' & _). eapply C; eauto.
  - assert (KP : forall m, dget (gp_d s2) m <> None -> dget d m <> None). { intros m Hm. destruct (dget (gp_d s2) m) as [[i l]|] eqn:E; [|tauto]. destruct (CB _ _ _ E) as (l' & -> & _). discriminate. }
    intros x Hx. apply in_app_or in Hx. destruct Hx as [Hx|[<-|[]]]; [destruct (D x Hx); split; auto|]. cbn [fst snd]. rewrite Du, Dv. split; discriminate.
  - exists (e :: I). split; [constructor; auto|]. split; [|split].
    + intros x [<-|Hx]; [split; [lia|]|].
      * exists u, iu, (lu ++ [(gr, e)]). split; auto. rewrite map_app. apply in_or_app. right; left; auto.
      * destruct (I1 x Hx) as (L & m & i & l & E & K). split; [unfold e; lia|]. destruct (CB _ _ _ E) as (l' & E' & K'). exists m, i, l'. auto.
    + intros m i l H. destruct (CA _ _ _ H) as (l0 & E & K). destruct (I2 _ _ _ E) as [Q1 Q2]. split.
      * intros [<-|Hi]; [|auto]. apply B in E. unfold e in *; lia.
      * intros x Hx. destruct (K x Hx) as [Hx'| ->]; [right; auto|left; auto].
    + intros f g H. cbn [asum].
      assert (Xu : g iu = f u) by (eapply H; eauto). assert (Xv : g iv = f v) by (eapply H; eauto).
      assert (Lu : (iu < e)%nat) by (destruct (B _ _ _ Eu); auto). assert (Lv : (iv < e)%nat) by (destruct (B _ _ _ Ev); auto).
      destruct (I2 _ _ _ Eu) as [NIu _]. destruct (I2 _ _ _ Ev) as [NIv _].
      assert (T : forall x, asum I (fun h => lprod nodes (fun n => gt (GP d (gp_dang s2) (S e)) n h)) (upd g e x)
        = lprod nodes (gk s2) * eprod es f * (RtoC (sqrt 2) * (vget (gvec gr (f u)) x * vget (gvec (negb gr) (f v)) x))).
      { intros x. rewrite (asum_ext I _ (fun h => lprod nodes (fun n => gt s2 n h) * ((RtoC q4 * vget (gvec gr (h iu)) (h e)) * (RtoC q4 * vget (gvec (negb gr) (h iv)) (h e))))).
        - rewrite (asum_pull I _ _ (RtoC (sqrt 2) * (vget (gvec gr (f u)) x * vget (gvec (negb gr) (f v)) x))).
          + rewrite (I3 f); auto. intros m i l E. destruct (CB _ _ _ E) as (l' & E' & _). rewrite upd_other by (destruct (B _ _ _ E); unfold e; lia). eapply H; eauto.
          + intros h Hh. rewrite !Hh by auto. rewrite upd_same, !upd_other by lia. rewrite Xu, Xv, <- q4_q4, RtoC_mul. ring.
        - intros h. rewrite Cmul_assoc'.
          rewrite <- (lprod_upd nodes (fun n => gt s2 n h) (fun n => if (n =? u)%nat then gt s2 n h * (RtoC q4 * vget (gvec gr (h iu)) (h e)) else gt s2 n h) u); auto.
          + apply (lprod_upd nodes _ _ v); auto.
            * intros m Hm. cbv beta. destruct (Nat.eqb_spec m u) as [->|N1].
              -- unfold gt. cbn [gp_d]. rewrite Du, Eu. apply gdata_push.
              -- unfold gt. cbn [gp_d]. rewrite DO by auto. auto.
            * cbv beta. destruct (Nat.eqb_spec v u); [congruence|]. unfold gt. cbn [gp_d]. rewrite Dv, Ev. apply gdata_push.
          + intros m Hm. cbv beta. destruct (Nat.eqb_spec m u); congruence.
          + cbv beta. rewrite Nat.eqb_refl. auto. }
      assert (EE : eprod (es ++ [(u, v)]) f = eprod es f * sgn (f u && f v)) by (unfold eprod; rewrite lprod_app, lprod_cons; replace (lprod [] (fun e0 : nat * nat => sgn (f (fst e0) && f (snd e0)))) with C1 by reflexivity; cbn [fst snd]; ring).
      rewrite !T, EE.
      replace (lprod nodes (gk (GP d (gp_dang s2) (S e)))) with (lprod nodes (gk s2)).
      2:{ apply lprod_ext. intros m _. unfold gk. cbn [gp_d]. destruct (Nat.eq_dec m u) as [->|N1]; [rewrite Du, Eu; auto|]. destruct (Nat.eq_dec m v) as [->|N2]; [rewrite Dv, Ev; auto|]. rewrite DO; auto. }
      set (Q := lprod nodes (gk s2) * eprod es f).
      transitivity (Q * RtoC (sqrt 2) * (vget (gvec gr (f u)) false * vget (gvec (negb gr) (f v)) false + vget (gvec gr (f u)) true * vget (gvec (negb gr) (f v)) true)); [ring|].
      rewrite edge_vecs. transitivity (Q * (RtoC (sqrt 2) * RtoC (/ sqrt 2)) * sgn (f u && f v)); [ring|]. rewrite <- RtoC_mul, sqrt2_inv. unfold Q.
      replace (RtoC 1) with C1 by reflexivity. ring.
Qed.
Lemma ginv_edges es : (forall e, In e es -> In (fst e) nodes /\ In (snd e) nodes /\ fst e <> snd e) -> ginv (fold_left gp_edge es (GP [] [] 0)) es.
Proof.
  induction es as [|[u v] es IH] using rev_ind; intros H; [apply ginv_nil|]. rewrite fold_left_app. cbn [fold_left].
  destruct (H (u, v)) as (A & B & D); [apply in_or_app; right; left; auto|]. apply ginv_edge; auto. apply IH. intros e He. apply H, in_or_app; auto.
Qed.
End Graph.

(** * The tensors *)
Definition ixd (dang : dict nat) (n : nat) : nat := match dget dang n with Some i => i | None => 0%nat end.
Definition mkt (d : dict (nat * list (bool * nat))) (dang : dict nat) (n : nat) : tensor :=
  match dget d n with Some (i, l) => gtensor n i l | None => Tsr [ixd dang n] (fun g => vget plus_state (g (ixd dang n))) n true end.
Lemma gp_nodes d dang next : (forall n i, dget dang n = Some i -> (i < next)%nat) -> (forall n, dget dang n = option_map fst (dget d n)) ->
  forall nodes, NoDup nodes -> let N := fold_left (gp_node d) nodes (TN [] dang next) in
  tn_ts N = map (mkt d (tn_dang N)) nodes /\ (next <= tn_next N)%nat
  /\ (forall n, dget d n <> None -> dget (tn_dang N) n = dget dang n)
  /\ (forall n, ~ In n nodes -> dget (tn_dang N) n = dget dang n)
  /\ (forall n, In n nodes -> dget d n = None -> exists i, dget (tn_dang N) n = Some i /\ (next <= i < tn_next N)%nat)
  /\ (forall n m i, dget d n = None -> dget d m = None -> dget (tn_dang N) n = Some i -> dget (tn_dang N) m = Some i -> n = m).
Proof.
  intros HB HD nodes. induction nodes as [|n nodes IH] using rev_ind; intros ND N.
  - cbn in N. unfold N. cbn. split; auto. split; auto. split; auto. split; auto. split; [tauto|]. intros n m i H1 H2 H3. rewrite HD, H1 in H3. discriminate.
  - assert (NI : ~ In n nodes) by (apply NoDup_remove_2 in ND; rewrite app_nil_r in ND; auto). apply NoDup_remove_1 in ND. rewrite app_nil_r in ND.
    specialize (IH ND). cbv zeta in IH. unfold N. rewrite fold_left_app. cbn [fold_left]. clear N. set (N := fold_left (gp_node d) nodes (TN [] dang next)) in *.
    destruct IH as (A & B & C & D & E & F). unfold gp_node. destruct (dget d n) as [[i l]|] eqn:En.
    + cbn [tn_ts tn_dang tn_next]. rewrite map_app. cbn [map]. split.
      { rewrite A. f_equal. unfold mkt. rewrite En. auto. }
      split; auto. split; auto. split; [intros m Hm; apply D; intros K; apply Hm, in_or_app; auto|]. split; auto.
      intros m Hm Em. apply in_app_or in Hm. destruct Hm as [Hm|[<-|[]]]; [auto|congruence].
    + unfold tn_add_qubit. cbn [tn_ts tn_dang tn_next].
      assert (DO : forall m, m <> n -> dget (dset (tn_dang N) n (tn_next N)) m = dget (tn_dang N) m) by (intros m Hm; rewrite dget_dset; destruct (Nat.eqb_spec n m); congruence).
      assert (DN : dget (dset (tn_dang N) n (tn_next N)) n = Some (tn_next N)) by (rewrite dget_dset, Nat.eqb_refl; auto).
      assert (LT : forall m i, dget d m = None -> m <> n -> dget (tn_dang N) m = Some i -> (i < tn_next N)%nat).
      { intros m i Hm Ne Hi. destruct (in_dec Nat.eq_dec m nodes) as [K|K]; [destruct (E m K Hm) as (j & Ej & L); rewrite Hi in Ej; injection Ej as <-; lia|]. rewrite (D m K) in Hi. rewrite HD, Hm in Hi. discriminate. }
      split; [|split; [lia|split; [|split; [|split]]]].
      * rewrite map_app. cbn [map]. f_equal.
        -- rewrite A. apply map_ext_in. intros m Hm. unfold mkt, ixd. rewrite DO by (intros ->; auto). auto.
        -- unfold mkt, ixd. rewrite En, DN. auto.
      * intros m Hm. rewrite DO by (intros ->; congruence). auto.
      * intros m Hm. rewrite DO by (intros ->; apply Hm, in_or_app; right; left; auto). apply D. intros K; apply Hm, in_or_app; auto.
      * intros m Hm Em. destruct (Nat.eq_dec m n) as [->|Ne]; [exists (tn_next N); split; auto; lia|]. rewrite DO by auto. apply in_app_or in Hm. destruct Hm as [Hm|[->|[]]]; [|congruence].
        destruct (E m Hm Em) as (i & Ei & L). exists i. split; auto. lia.
      * intros m m' i H1 H2. destruct (Nat.eq_dec m n) as [->|Ne], (Nat.eq_dec m' n) as [->|Ne']; auto; rewrite ?DN; rewrite ?DO by auto.
        -- intros [= <-] K. apply LT in K; auto. lia.
        -- intros K [= <-]. apply LT in K; auto. lia.
        -- apply F; auto.
Qed.
Lemma plus_get b : vget plus_state b = RtoC (/ sqrt 2).
Proof.
  assert (E0 : cis 0 = C1) by (unfold cis; rewrite Rmult_0_l, cos_0, sin_0; reflexivity).
  unfold plus_state, planar_state. rewrite E0. destruct b; cbn [vget v0 v1]; ring.
Qed.
Lemma cprod_map (l : list nat) (F : nat -> tensor) h : cprod (map tcore (map F l)) h = lprod l (fun n => t_data (F n) h).
Proof. unfold cprod, lprod. induction l as [|n l IH]; cbn [map fold_right]; auto. rewrite IH. auto. Qed.
Lemma gp_keyed n : forall es s, dget (gp_d (fold_left gp_edge es s)) n <> None -> dget (gp_d s) n <> None \/ exists e, In e es /\ (fst e = n \/ snd e = n).
Proof.
  assert (EN : forall s m, dget (gp_d (gp_ensure s m)) n <> None -> dget (gp_d s) n <> None \/ m = n).
  { intros s m. unfold gp_ensure. destruct (dget (gp_d s) m) eqn:E; auto. cbn [gp_d]. rewrite dget_dset. destruct (Nat.eqb_spec m n); auto. }
  assert (PU : forall s m x, dget (gp_d (gp_push s m x)) n <> None -> dget (gp_d s) n <> None).
  { intros s m x. unfold gp_push. destruct (dget (gp_d s) m) as [[i l]|] eqn:E; auto. cbn [gp_d]. rewrite dget_dset. destruct (Nat.eqb_spec m n); auto. subst. rewrite E. discriminate. }
  induction es as [|e es IH]; intros s H; cbn [fold_left] in H; [auto|]. apply IH in H. destruct H as [H|(e' & A & B)]; [|right; exists e'; split; [right; auto|auto]].
  unfold gp_edge in H. cbv zeta in H. cbn [gp_d] in H. apply PU, PU, EN in H. destruct H as [H|H]; [apply EN in H; destruct H as [H|H]; auto|]; right; exists e; split; auto; left; auto.
Qed.
(** prepare_graph_state prepares the graph state *)
Lemma prepare_ok nodes es : NoDup nodes -> (forall e, In e es -> In (fst e) nodes /\ In (snd e) nodes /\ fst e <> snd e) ->
  let N := prepare_graph_state nodes es in
  (forall t, In t (tn_ts N) -> In (t_node t) nodes) /\ (forall n, In n nodes -> (forall e, In e es -> fst e <> n /\ snd e <> n) -> vec_only N n) /\
  open1 N /\ reps (map tcore (tn_ts N)) (tn_dang N) (tn_next N) (fun n => In n nodes) C1 (graph_state nodes es).
Proof.
  intros ND HE N. unfold prepare_graph_state in N. pose proof (ginv_edges nodes ND es HE) as G.
  assert (KY : forall n, (forall e, In e es -> fst e <> n /\ snd e <> n) -> dget (gp_d (fold_left gp_edge es (GP [] [] 0))) n = None).
  { intros n H. destruct (dget (gp_d (fold_left gp_edge es (GP [] [] 0))) n) as [x|] eqn:E; auto. exfalso. destruct (gp_keyed n es (GP [] [] 0)) as [K|(e & He & K)]; [rewrite E; discriminate|apply K; reflexivity|]. destruct (H e He). tauto. }
  set (s := fold_left gp_edge es (GP [] [] 0)) in *. clearbody s. destruct G as [A B C _ (I & NI & I1 & I2 & I3)].
  assert (HB : forall n i, dget (gp_dang s) n = Some i -> (i < gp_next s)%nat).
  { intros n i H. rewrite A in H. destruct (dget (gp_d s) n) as [[j l]|] eqn:E; cbn in H; [|discriminate]. injection H as <-. eapply B; eauto. }
  destruct (gp_nodes (gp_d s) (gp_dang s) (gp_next s) HB A nodes ND) as (T & L & P1 & P2 & P3 & P4). fold N in T, L, P1, P2, P3, P4. clearbody N.
  assert (KE : forall n i l, dget (gp_d s) n = Some (i, l) -> dget (tn_dang N) n = Some i). { intros n i l E. rewrite P1 by congruence. rewrite A, E. reflexivity. }
  assert (ALL : forall n, In n nodes -> exists i, dget (tn_dang N) n = Some i /\ (i < tn_next N)%nat /\ ~ In i I /\ hd 0%nat (t_inds (mkt (gp_d s) (tn_dang N) n)) = i
     /\ In i (t_inds (mkt (gp_d s) (tn_dang N) n)) /\ forall x, In x (t_inds (mkt (gp_d s) (tn_dang N) n)) -> x = i \/ In x I).
  { intros n Hn. unfold mkt. destruct (dget (gp_d s) n) as [[i l]|] eqn:E.
    - exists i. split; [eapply KE; eauto|]. destruct (B _ _ _ E). destruct (I2 _ _ _ E) as [Q1 Q2]. split; [lia|]. split; auto. split; [reflexivity|]. split; [left; auto|].
      intros x [<-|Hx]; auto.
    - destruct (P3 n Hn E) as (i & Ei & Li). exists i. split; auto. split; [lia|]. split; [intros K; apply I1 in K; lia|]. unfold ixd. rewrite Ei. cbn. split; auto. split; auto. intros x [<-|[]]; auto. }
  assert (INJ : forall n m i, In n nodes -> In m nodes -> dget (tn_dang N) n = Some i -> dget (tn_dang N) m = Some i -> n = m).
  { intros n m i Hn Hm E1 E2. destruct (dget (gp_d s) n) as [[a l]|] eqn:En, (dget (gp_d s) m) as [[b l']|] eqn:Em.
    - rewrite (KE _ _ _ En) in E1. rewrite (KE _ _ _ Em) in E2. injection E1 as ->. injection E2 as ->. eapply C; eauto.
    - rewrite (KE _ _ _ En) in E1. injection E1 as ->. destruct (B _ _ _ En). destruct (P3 m Hm Em) as (j & Ej & Lj). rewrite E2 in Ej. injection Ej as <-. lia.
    - rewrite (KE _ _ _ Em) in E2. injection E2 as ->. destruct (B _ _ _ Em). destruct (P3 n Hn En) as (j & Ej & Lj). rewrite E1 in Ej. injection Ej as <-. lia.
    - eapply P4; eauto. }
  assert (TN : forall n, t_node (mkt (gp_d s) (tn_dang N) n) = n) by (intros n; unfold mkt; destruct (dget (gp_d s) n) as [[? ?]|]; reflexivity).
  split; [|split; [|split]].
  - intros t Ht. rewrite T in Ht. apply in_map_iff in Ht. destruct Ht as (n & <- & Hn). rewrite TN. auto.
  - intros n Hn HK. apply KY in HK. destruct (P3 n Hn HK) as (i & Ei & _). exists i. split; auto. split.
    + exists (mkt (gp_d s) (tn_dang N) n). rewrite T. split; [apply in_map; auto|]. rewrite TN. split; auto. unfold mkt. rewrite HK. reflexivity.
    + intros t Ht Et. rewrite T in Ht. apply in_map_iff in Ht. destruct Ht as (m & <- & Hm). rewrite TN in Et. subst m. unfold mkt, ixd. rewrite HK, Ei. reflexivity.
  - intros t i Ht _ Ei h. rewrite T in Ht. apply in_map_iff in Ht. destruct Ht as (n & <- & Hn). unfold mkt in *. destruct (dget (gp_d s) n) as [[j l]|].
    + cbn [gtensor t_inds] in Ei. injection Ei as -> El. destruct l as [|x l]; [|discriminate]. cbn [gtensor t_data length fold_right]. rewrite gweight_0, plus_get. ring.
    + cbn [t_inds] in Ei. injection Ei as Ei. cbn [t_data]. rewrite Ei. auto.
  - rewrite T. constructor.
    + intros n Hn. destruct (ALL n Hn) as (i & Ei & Li & _ & _ & Hi & _). exists i. split; auto. split; auto. exists (tcore (mkt (gp_d s) (tn_dang N) n)). split; auto. apply in_map, in_map; auto.
    + auto.
    + intros c n m i j Hc Hn Hm Ei Ej Hi Hj. apply in_map_iff in Hc. destruct Hc as (t & <- & Ht). apply in_map_iff in Ht. destruct Ht as (q & <- & Hq).
      destruct (ALL q Hq) as (x & Ex & _ & _ & _ & _ & Xq). destruct (ALL n Hn) as (y & Ey & _ & Ny & _). destruct (ALL m Hm) as (z & Ez & _ & Nz & _).
      rewrite Ei in Ey. injection Ey as <-. rewrite Ej in Ez. injection Ez as <-. destruct (Xq i Hi) as [->|]; [|tauto]. destruct (Xq j Hj) as [->|]; [|tauto]. eapply INJ; eauto.
    + exists I. split; auto. split; [|split; [|split]].
      * intros e He. destruct (I1 e He) as (Le & n & i & l & E & K). split; [|lia]. exists (tcore (mkt (gp_d s) (tn_dang N) n)). split; [apply in_map, in_map; eapply B; eauto|].
        unfold mkt. rewrite E. right. auto.
      * intros i (c & Hc & Hi). apply in_map_iff in Hc. destruct Hc as (t & <- & Ht). apply in_map_iff in Ht. destruct Ht as (q & <- & Hq).
        destruct (ALL q Hq) as (x & Ex & _ & _ & _ & _ & Xq). destruct (Xq i Hi) as [->|]; [right; eauto|left; auto].
      * intros n i Hn Ei. destruct (ALL n Hn) as (x & Ex & _ & Nx & _). congruence.
      * intros f g H. set (pl := fun n => match dget (gp_d s) n with Some _ => C1 | None => RtoC (/ sqrt 2) end).
        rewrite (asum_ext I _ (fun h => lprod nodes (fun n => gt s n h) * lprod nodes pl)).
        2:{ intros h. rewrite cprod_map, <- lprod_mul. apply lprod_ext. intros n Hn. unfold mkt, gt, pl. destruct (dget (gp_d s) n) as [[i l]|]; [ring|]. cbn [t_data]. rewrite plus_get. ring. }
        rewrite (asum_pull I _ _ (lprod nodes pl)) by auto. rewrite (I3 f g) by (intros n i l E; apply H; [eapply B; eauto|eapply KE; eauto]).
        unfold graph_state. replace (lprod nodes (fun _ => RtoC (/ sqrt 2))) with (lprod nodes (gk s) * lprod nodes pl); [ring|].
        rewrite <- lprod_mul. apply lprod_ext. intros n _. unfold gk, pl. destruct (dget (gp_d s) n); ring.
Qed.
