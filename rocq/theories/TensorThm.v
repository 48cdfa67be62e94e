(** Correctness of the tensor-network simulation: lemmas. *)
From Coq Require Import Reals Lra Arith List Bool Lia Permutation FunctionalExtensionality.
From Verif Require Import Cplx Mat2 Fundamentals CliffordDb Clifford NSet Measure QState Pattern Layer Standardize NodeIndex Statevec Density Simulator OpenGraph Flow SpaceHeur TensorNet.
Import ListNotations.
Local Open Scope C_scope.

(** * Sums *)
Definition off (I : list nat) (g h : asg) : Prop := forall i, ~ In i I -> h i = g i.
Lemma off_upd I g h q b : off I (upd g q b) h -> off (q :: I) g h.
Proof. intros H i Hi. rewrite H by (intros K; apply Hi; right; auto). apply upd_other. intros ->. apply Hi; left; auto. Qed.
Lemma asum_ext_off I F G : forall g, (forall h, off I g h -> F h = G h) -> asum I F g = asum I G g.
Proof.
  induction I as [|q I IH]; intros g H; cbn [asum]; [apply H; intros i _; auto|].
  rewrite !(IH (upd _ _ _)); auto; intros h Hh; apply H; eapply off_upd; eauto.
Qed.
Lemma asum_pull I F c k g : (forall h, off I g h -> c h = k) -> asum I (fun h => F h * c h) g = asum I F g * k.
Proof.
  intros H. rewrite (asum_ext_off I (fun h => F h * c h) (fun h => k * F h)) by (intros h Hh; rewrite (H h Hh); ring).
  rewrite asum_mul. ring.
Qed.

(** * What a network represents *)
(** indices and entries of a tensor *)
Definition core := (list nat * (asg -> C))%type.
Definition tcore (t : tensor) : core := (t_inds t, t_data t).
Definition cprod (cs : list core) (g : asg) : C := fold_right (fun t c => snd t g * c) C1 cs.
Lemma tprod_core ts g : tprod ts g = cprod (map tcore ts) g.
Proof. induction ts as [|t ts IH]; simpl; auto. unfold tprod, cprod in *. simpl. rewrite IH. auto. Qed.
Lemma cprod_app a b g : cprod (a ++ b) g = cprod a g * cprod b g.
Proof. unfold cprod. induction a as [|t a IH]; simpl; [ring|]. rewrite IH. ring. Qed.
Lemma close_core i ts : map tcore (close_first i ts) = map tcore ts.
Proof. induction ts as [|t ts IH]; simpl; auto. destruct (lmem i (t_inds t)); simpl; [reflexivity|rewrite IH; reflexivity]. Qed.
Definition has_ind (i : nat) (cs : list core) : Prop := exists c, In c cs /\ In i (fst c).

(** the network [cs], whose open indices are the dangling indices of the nodes
    [lv], holds [k] times the state [psi] of these nodes *)
Record reps (cs : list core) (dang : dict nat) (next : nat) (lv : nat -> Prop) (k : C) (psi : state) : Prop := {
  rp_dang : forall n, lv n -> exists i, dget dang n = Some i /\ has_ind i cs /\ (i < next)%nat;
  rp_inj : forall n m i, lv n -> lv m -> dget dang n = Some i -> dget dang m = Some i -> n = m;
  rp_one : forall c n m i j, In c cs -> lv n -> lv m -> dget dang n = Some i -> dget dang m = Some j -> In i (fst c) -> In j (fst c) -> n = m;
  rp_sum : exists I, NoDup I /\ (forall i, In i I -> has_ind i cs /\ (i < next)%nat)
    /\ (forall i, has_ind i cs -> In i I \/ exists n, lv n /\ dget dang n = Some i)
    /\ (forall n i, lv n -> dget dang n = Some i -> ~ In i I)
    /\ forall f g, (forall n i, lv n -> dget dang n = Some i -> g i = f n) -> asum I (cprod cs) g = k * psi f }.
Lemma has_ind_app i a b : has_ind i (a ++ b) <-> has_ind i a \/ has_ind i b.
Proof.
  split.
  - intros (c & Hc & Hi). apply in_app_or in Hc. destruct Hc; [left|right]; exists c; auto.
  - intros [(c & Hc & Hi)|(c & Hc & Hi)]; exists c; split; auto; apply in_or_app; auto.
Qed.
Lemma reps_lt cs dang next lv k psi i : reps cs dang next lv k psi -> has_ind i cs -> (i < next)%nat.
Proof.
  intros [A B C (I & ND & I1 & I2 & I3 & I4)] H. destruct (I2 i H) as [K|(n & L & E)]; [apply I1; auto|].
  destruct (A n L) as (j & E' & _ & Lt). congruence.
Qed.
Lemma reps_ext cs dang next lv lv' k k' psi psi' : (forall n, lv n <-> lv' n) -> (forall f, k * psi f = k' * psi' f) ->
  reps cs dang next lv k psi -> reps cs dang next lv' k' psi'.
Proof.
  intros HL HP [A B C (I & ND & I1 & I2 & I3 & I4)]. constructor.
  - intros n Hn. apply A, HL; auto.
  - intros n m i Hn Hm. apply B; apply HL; auto.
  - intros c n m i j Hc Hn Hm. apply C; auto; apply HL; auto.
  - exists I. split; auto. split; auto. split; [|split].
    + intros i Hi. destruct (I2 i Hi) as [K|(n & L & E)]; auto. right. exists n. split; auto. apply HL; auto.
    + intros n i Hn. apply I3, HL; auto.
    + intros f g H. rewrite <- HP. apply I4. intros n i Hn. apply H, HL; auto.
Qed.
(** a new qubit *)
Lemma reps_prep cs dang next lv k psi n v : reps cs dang next lv k psi -> ~ lv n ->
  reps (cs ++ [([next], fun g => vget v (g next))]) (dset dang n next) (S next) (fun m => m = n \/ lv m) k (app_op (OPrep v n) psi).
Proof.
  intros RP Hn. assert (LT := reps_lt _ _ _ _ _ _ next RP). assert (NI : ~ has_ind next cs) by (intros K; apply LT in K; lia). clear LT.
  destruct RP as [A B C (I & ND & I1 & I2 & I3 & I4)].
  assert (DO : forall m, lv m -> dget (dset dang n next) m = dget dang m). { intros m Hm. rewrite dget_dset. destruct (Nat.eqb_spec n m); subst; tauto. }
  assert (DN : dget (dset dang n next) n = Some next) by (rewrite dget_dset, Nat.eqb_refl; auto).
  assert (FR : forall m, lv m -> dget dang m <> Some next). { intros m Hm E. destruct (A m Hm) as (i & E' & _ & L). rewrite E in E'. injection E' as <-. lia. }
  constructor.
  - intros m [->|Hm].
    + exists next. split; auto. split; [|lia]. apply has_ind_app. right. eexists. split; [left; eauto|]. simpl; auto.
    + rewrite (DO m Hm). destruct (A m Hm) as (i & E & H & L). exists i. split; auto. split; [|lia]. apply has_ind_app; auto.
  - intros m m' i [->|Hm] [->|Hm']; auto; rewrite ?DN; rewrite ?DO by auto; intros E1 E2.
    + injection E1 as <-. destruct (FR _ Hm' E2).
    + injection E2 as <-. destruct (FR _ Hm E1).
    + eapply B; eauto.
  - intros c m m' i j Hc. apply in_app_or in Hc. destruct Hc as [Hc|[<-|[]]].
    + intros [->|Hm] [->|Hm']; auto; rewrite ?DN; rewrite ?DO by auto; intros E1 E2 H1 H2.
      * injection E1 as <-. exfalso. apply NI. exists c; auto.
      * injection E2 as <-. exfalso. apply NI. exists c; auto.
      * eapply C; eauto.
    + intros [->|Hm] [->|Hm']; auto; rewrite ?DN; rewrite ?DO by auto; intros E1 E2 [<-|[]] [<-|[]]; exfalso; eapply FR; eauto.
  - exists I. assert (NI' : ~ In next I) by (intros K; apply I1 in K; lia).
    split; auto. split; [|split; [|split]].
    + intros i Hi. destruct (I1 i Hi) as [H L]. split; [apply has_ind_app; auto|lia].
    + intros i Hi. apply has_ind_app in Hi. destruct Hi as [Hi|(c & [<-|[]] & [<-|[]])].
      * destruct (I2 i Hi) as [K|(m & L & E)]; auto. right. exists m. split; auto. rewrite DO; auto.
      * right. exists n. split; auto.
    + intros m i [->|Hm]; [rewrite DN|rewrite DO by auto]; intros E.
      * injection E as <-. auto.
      * eapply I3; eauto.
    + intros f g H. rewrite (asum_ext I _ (fun h => cprod cs h * vget v (h next))) by (intros h; rewrite cprod_app; unfold cprod; cbn; ring).
      rewrite (asum_pull I _ _ (vget v (g next))) by (intros h Hh; rewrite (Hh next NI'); auto).
      rewrite (I4 f g) by (intros m i Hm E; apply H; auto; rewrite DO; auto). rewrite (H n next) by auto. cbn [app_op]. ring.
Qed.
(** a one-qubit gate *)
Lemma reps_evolve cs dang next lv k psi n U old : reps cs dang next lv k psi -> lv n -> dget dang n = Some old ->
  reps (cs ++ [([next; old], fun g => mget U (g next) (g old))]) (dset dang n next) (S next) lv k (app_op (OApp1 U n) psi).
Proof.
  intros RP Hn Eo. assert (LT := reps_lt _ _ _ _ _ _ next RP). assert (NI : ~ has_ind next cs) by (intros K; apply LT in K; lia). clear LT.
  destruct RP as [A B C (I & ND & I1 & I2 & I3 & I4)].
  assert (DN : dget (dset dang n next) n = Some next) by (rewrite dget_dset, Nat.eqb_refl; auto).
  assert (DO : forall m, m <> n -> dget (dset dang n next) m = dget dang m). { intros m Hm. rewrite dget_dset. destruct (Nat.eqb_spec n m); subst; tauto. }
  assert (FR : forall m, lv m -> dget dang m <> Some next). { intros m Hm E. destruct (A m Hm) as (i & E' & _ & L). rewrite E in E'. injection E' as <-. lia. }
  assert (OL : (old < next)%nat) by (destruct (A n Hn) as (i & E & _ & L); congruence).
  constructor.
  - intros m Hm. destruct (Nat.eq_dec m n) as [->|Ne].
    + exists next. split; auto. split; [|lia]. apply has_ind_app. right. eexists. split; [left; eauto|]. simpl; auto.
    + rewrite (DO m Ne). destruct (A m Hm) as (i & E & H & L). exists i. split; auto. split; [|lia]. apply has_ind_app; auto.
  - intros m m' i Hm Hm'. destruct (Nat.eq_dec m n) as [->|Ne], (Nat.eq_dec m' n) as [->|Ne']; auto; rewrite ?DN; rewrite ?DO by auto; intros E1 E2.
    + injection E1 as <-. destruct (FR _ Hm' E2).
    + injection E2 as <-. destruct (FR _ Hm E1).
    + eapply B; eauto.
  - intros c m m' i j Hc Hm Hm'. destruct (Nat.eq_dec m n) as [->|Ne], (Nat.eq_dec m' n) as [->|Ne']; auto; rewrite ?DN; rewrite ?DO by auto; intros E1 E2 H1 H2; apply in_app_or in Hc.
    + injection E1 as <-. destruct Hc as [Hc|[<-|[]]]; [exfalso; apply NI; exists c; auto|]. destruct H2 as [<-|[<-|[]]]; [destruct (FR _ Hm' E2)|]. exfalso. apply Ne'. eapply B; eauto.
    + injection E2 as <-. destruct Hc as [Hc|[<-|[]]]; [exfalso; apply NI; exists c; auto|]. destruct H1 as [<-|[<-|[]]]; [destruct (FR _ Hm E1)|]. exfalso. apply Ne. eapply B; eauto.
    + destruct Hc as [Hc|[<-|[]]]; [eapply C; eauto|]. destruct H1 as [<-|[<-|[]]]; [destruct (FR _ Hm E1)|]. exfalso. apply Ne. eapply B; eauto.
  - exists (old :: I). assert (NI' : ~ In next I) by (intros K; apply I1 in K; lia). assert (NO : ~ In old I) by (eapply I3; eauto).
    split; [constructor; auto|]. split; [|split; [|split]].
    + intros i [<-|Hi]; [split; [apply has_ind_app; right; eexists; split; [left; eauto|simpl; auto]|lia]|].
      destruct (I1 i Hi) as [H L]. split; [apply has_ind_app; auto|lia].
    + intros i Hi. apply has_ind_app in Hi. destruct Hi as [Hi|(c & [<-|[]] & [<-|[<-|[]]])].
      * destruct (I2 i Hi) as [K|(m & L & E)]; [left; right; auto|]. destruct (Nat.eq_dec m n) as [->|Ne]; [left; left; congruence|]. right. exists m. split; auto. rewrite DO; auto.
      * right. exists n. split; auto.
      * left; left; auto.
    + intros m i Hm. destruct (Nat.eq_dec m n) as [->|Ne]; [rewrite DN|rewrite DO by auto]; intros E.
      * injection E as <-. intros [K|K]; [lia|auto].
      * intros [K|K]; [subst; apply Ne; eapply B; eauto|eapply I3; eauto].
    + intros f g H. cbn [asum].
      assert (T : forall b, asum I (cprod (cs ++ [([next; old], fun g0 : asg => mget U (g0 next) (g0 old))])) (upd g old b) = k * psi (upd f n b) * mget U (f n) b).
      { intros b. rewrite (asum_ext I _ (fun h => cprod cs h * mget U (h next) (h old))) by (intros h; rewrite cprod_app; unfold cprod; cbn; ring).
        rewrite (asum_pull I _ _ (mget U (f n) b)).
        - rewrite (I4 (upd f n b)); auto. intros m i Hm E. destruct (Nat.eq_dec m n) as [->|Ne].
          + rewrite Eo in E. injection E as <-. rewrite !upd_same. auto.
          + rewrite !upd_other by (auto; intros ->; apply Ne; eapply B; eauto). apply H; auto. rewrite DO; auto.
        - intros h Hh. rewrite !Hh by auto. rewrite upd_same, upd_other by lia. rewrite (H n next); auto. }
      rewrite !T. cbn [app_op]. ring.
Qed.
(** a projection *)
Lemma reps_project cs dang next lv k psi n v c old : reps cs dang next lv k psi -> lv n -> dget dang n = Some old ->
  reps (cs ++ [([old], fun g => Cconj (vget (vscale c v) (g old)))]) dang next (fun m => lv m /\ m <> n) (Cconj c * k) (app_op (OMeas v n) psi).
Proof.
  intros RP Hn Eo. destruct RP as [A B C (I & ND & I1 & I2 & I3 & I4)].
  assert (OL : (old < next)%nat) by (destruct (A n Hn) as (i & E & _ & L); congruence).
  constructor.
  - intros m [Hm _]. destruct (A m Hm) as (i & E & H & L). exists i. split; auto. split; [|lia]. apply has_ind_app; auto.
  - intros m m' i [Hm _] [Hm' _]. apply B; auto.
  - intros x m m' i j Hc [Hm Ne] [Hm' Ne'] E1 E2 H1 H2. apply in_app_or in Hc. destruct Hc as [Hc|[<-|[]]]; [eapply C; eauto|].
    destruct H1 as [<-|[]]. exfalso. apply Ne. eapply B; eauto.
  - exists (old :: I). assert (NO : ~ In old I) by (eapply I3; eauto).
    split; [constructor; auto|]. split; [|split; [|split]].
    + intros i [<-|Hi]; [split; [apply has_ind_app; right; eexists; split; [left; eauto|simpl; auto]|lia]|].
      destruct (I1 i Hi) as [H L]. split; [apply has_ind_app; auto|lia].
    + intros i Hi. apply has_ind_app in Hi. destruct Hi as [Hi|(x & [<-|[]] & [<-|[]])].
      * destruct (I2 i Hi) as [K|(m & L & E)]; [left; right; auto|]. destruct (Nat.eq_dec m n) as [->|Ne]; [left; left; congruence|]. right. exists m. split; auto.
      * left; left; auto.
    + intros m i [Hm Ne] E [K|K]; [subst; apply Ne; eapply B; eauto|eapply I3; eauto].
    + intros f g H. cbn [asum].
      assert (T : forall b, asum I (cprod (cs ++ [([old], fun g0 : asg => Cconj (vget (vscale c v) (g0 old)))])) (upd g old b) = k * psi (upd f n b) * Cconj (vget (vscale c v) b)).
      { intros b. rewrite (asum_ext I _ (fun h => cprod cs h * Cconj (vget (vscale c v) (h old)))) by (intros h; rewrite cprod_app; unfold cprod; cbn; ring).
        rewrite (asum_pull I _ _ (Cconj (vget (vscale c v) b))).
        - rewrite (I4 (upd f n b)); auto. intros m i Hm E. destruct (Nat.eq_dec m n) as [->|Ne].
          + rewrite Eo in E. injection E as <-. rewrite !upd_same. auto.
          + rewrite !upd_other by (auto; intros ->; apply Ne; eapply B; eauto). apply H; auto.
        - intros h Hh. rewrite !Hh by auto. rewrite upd_same; auto. }
      rewrite !T. cbn [app_op]. destruct v as [x y]. cbn [vscale vget v0 v1]. rewrite !Cconj_mul. ring.
Qed.
(** a CZ, split in two tensors *)
Definition cz_split (czl czr : bool -> bool -> bool -> C) : Prop := forall o1 i1 o2 i2,
  czl o1 i1 false * czr false o2 i2 + czl o1 i1 true * czr true o2 i2 = if eqb o1 i1 && eqb o2 i2 then sgn (i1 && i2) else C0.
Lemma reps_cz czl czr cs dang next lv k psi u v i j : cz_split czl czr -> reps cs dang next lv k psi -> lv u -> lv v -> u <> v ->
  dget dang u = Some i -> dget dang v = Some j ->
  let a := next in let b := S a in let c := S b in
  reps (cs ++ [([a; i; c], fun g => czl (g a) (g i) (g c)); ([c; b; j], fun g => czr (g c) (g b) (g j))]) (dset (dset dang u a) v b) (S c) lv k (app_op (OCz u v) psi).
Proof.
  intros HS RP Hu Hv Ne Ei Ej a b c.
  assert (LT := fun x => reps_lt _ _ _ _ _ _ x RP).
  destruct RP as [A B C (I & ND & I1 & I2 & I3 & I4)].
  assert (Du : dget (dset (dset dang u a) v b) u = Some a). { rewrite !dget_dset, Nat.eqb_refl. destruct (Nat.eqb_spec v u); congruence. }
  assert (Dv : dget (dset (dset dang u a) v b) v = Some b) by (rewrite !dget_dset, Nat.eqb_refl; auto).
  assert (DO : forall m, m <> u -> m <> v -> dget (dset (dset dang u a) v b) m = dget dang m). { intros m H1 H2. rewrite !dget_dset. destruct (Nat.eqb_spec v m), (Nat.eqb_spec u m); subst; tauto. }
  assert (FR : forall m x, lv m -> dget dang m = Some x -> (x < next)%nat). { intros m x Hm E. destruct (A m Hm) as (y & E' & _ & L). rewrite E in E'. injection E' as <-. auto. }
  assert (Li := FR _ _ Hu Ei). assert (Lj := FR _ _ Hv Ej). assert (Nij : i <> j) by (intros ->; apply Ne; eapply B; eauto).
  assert (CA : forall m, lv m -> exists x, dget (dset (dset dang u a) v b) m = Some x /\
     ((m = u /\ x = a) \/ (m = v /\ x = b) \/ (m <> u /\ m <> v /\ dget dang m = Some x /\ (x < next)%nat /\ x <> i /\ x <> j))).
  { intros m Hm. destruct (Nat.eq_dec m u) as [->|N1]; [exists a; auto|]. destruct (Nat.eq_dec m v) as [->|N2]; [exists b; auto|].
    destruct (A m Hm) as (x & E & _ & L). exists x. rewrite DO by auto. split; auto. right; right. repeat split; auto; intros ->; [apply N1|apply N2]; eapply B; eauto. }
  constructor.
  - intros m Hm. destruct (CA m Hm) as (x & E & Q). exists x. split; auto. rewrite has_ind_app. destruct Q as [(-> & ->)|[(-> & ->)|(N1 & N2 & E' & L & _)]].
    + split; [right; eexists; split; [left; reflexivity|simpl; auto]|unfold a; lia].
    + split; [right; eexists; split; [right; left; reflexivity|simpl; auto]|unfold b, a; lia].
    + destruct (A m Hm) as (y & E2 & H & _). rewrite E' in E2. injection E2 as <-. split; [left; auto|lia].
  - intros m m' x Hm Hm' E1 E2. destruct (CA m Hm) as (y & F1 & Q1). destruct (CA m' Hm') as (y' & F2 & Q2). rewrite E1 in F1. injection F1 as <-. rewrite E2 in F2. injection F2 as <-.
    destruct Q1 as [(-> & Q1)|[(-> & Q1)|(N1 & N2 & E1' & L1 & _)]], Q2 as [(-> & Q2)|[(-> & Q2)|(N1' & N2' & E2' & L2 & _)]]; auto; try (exfalso; unfold b, a in *; lia). eapply B; eauto.
  - intros x m m' y y' Hx Hm Hm' E1 E2 H1 H2. destruct (CA m Hm) as (z & F1 & Q1). destruct (CA m' Hm') as (z' & F2 & Q2). rewrite E1 in F1. injection F1 as <-. rewrite E2 in F2. injection F2 as <-.
    apply in_app_or in Hx. destruct Hx as [Hx|Hx].
    + assert (y < next)%nat by (apply LT; exists x; auto). assert (y' < next)%nat by (apply LT; exists x; auto).
      destruct Q1 as [(-> & Q1)|[(-> & Q1)|(N1 & N2 & E1' & L1 & _)]], Q2 as [(-> & Q2)|[(-> & Q2)|(N1' & N2' & E2' & L2 & _)]]; auto; try (exfalso; unfold b, a in *; lia). eapply C; eauto.
    + destruct Hx as [<-|[<-|[]]]; cbn [fst In] in H1, H2;
      destruct Q1 as [(-> & Q1)|[(-> & Q1)|(N1 & N2 & E1' & L1 & M1 & M1')]], Q2 as [(-> & Q2)|[(-> & Q2)|(N1' & N2' & E2' & L2 & M2 & M2')]]; auto; try (exfalso; unfold c, b, a in *; lia).
  - exists (c :: i :: j :: I). assert (NI : forall x, (next <= x)%nat -> ~ In x I).
    { intros x Hx K. destruct (I1 x K) as [_ K'].
      lia. }
    assert (NO := I3 u i Hu Ei). assert (NO' := I3 v j Hv Ej).
    split; [|split; [|split; [|split]]].
    + constructor; [intros [K|[K|K]]; [unfold c, b, a in *; lia|unfold c, b, a in *; lia|revert K; apply NI; unfold c, b, a; lia]|]. constructor; [intros [K|K]; congruence || auto|]. constructor; auto.
    + intros x Hx. rewrite has_ind_app. cbn [In] in Hx. destruct Hx as [<-|[<-|[<-|Hx]]].
      * split; [right; eexists; split; [left; reflexivity|simpl; auto]|lia].
      * split; [right; eexists; split; [left; reflexivity|simpl; auto]|unfold c, b, a; lia].
      * split; [right; eexists; split; [right; left; reflexivity|simpl; auto]|unfold c, b, a; lia].
      * destruct (I1 x Hx) as [H L]. split; auto. unfold c, b, a; lia.
    + intros x Hx. apply has_ind_app in Hx. destruct Hx as [Hx|(y & [<-|[<-|[]]] & Hy)].
      * destruct (I2 x Hx) as [K|(m & L & E)]; [left; simpl; auto|].
        destruct (Nat.eq_dec m u) as [->|N1]; [left; simpl; right; left; congruence|]. destruct (Nat.eq_dec m v) as [->|N2]; [left; simpl; right; right; left; congruence|].
        right. exists m. rewrite DO; auto.
      * destruct Hy as [<-|[<-|[<-|[]]]]; [right; exists u; auto|left; simpl; auto|left; simpl; auto].
      * destruct Hy as [<-|[<-|[<-|[]]]]; [left; simpl; auto|right; exists v; auto|left; simpl; auto].
    + intros m x Hm E Hx. destruct (CA m Hm) as (y & F1 & Q1). rewrite E in F1. injection F1 as <-.
      destruct Q1 as [(-> & ->)|[(-> & ->)|(N1 & N2 & E1' & L1 & M1 & M1')]].
      * destruct Hx as [K|[K|[K|K]]]; try (unfold c, b, a in *; lia). revert K. apply NI. unfold a; lia.
      * destruct Hx as [K|[K|[K|K]]]; try (unfold c, b, a in *; lia). revert K. apply NI. unfold b, a; lia.
      * destruct Hx as [K|[K|[K|K]]]; try (unfold c, b, a in *; lia); try congruence. revert K. eapply I3; eauto.
    + intros f g H. cbn [asum].
      assert (T : forall x y z, asum I (cprod (cs ++ [([a; i; c], fun g0 : asg => czl (g0 a) (g0 i) (g0 c)); ([c; b; j], fun g0 : asg => czr (g0 c) (g0 b) (g0 j))])) (upd (upd (upd g c x) i y) j z)
         = k * psi (upd (upd f u y) v z) * (czl (f u) y x * czr x (f v) z)).
      { intros x y z. rewrite (asum_ext I _ (fun h => cprod cs h * (czl (h a) (h i) (h c) * czr (h c) (h b) (h j)))) by (intros h; rewrite cprod_app; unfold cprod; cbn [fold_right snd]; ring).
        rewrite (asum_pull I _ _ (czl (f u) y x * czr x (f v) z)).
        - rewrite (I4 (upd (upd f u y) v z)); auto. intros m w Hm E. assert (Lw := FR _ _ Hm E).
          destruct (Nat.eq_dec m v) as [->|N2].
          + rewrite Ej in E. injection E as <-. rewrite !upd_same. auto.
          + assert (w <> j) by (intros ->; apply N2; eapply B; eauto). rewrite !(upd_other _ v), !(upd_other _ j) by auto. destruct (Nat.eq_dec m u) as [->|N1].
            * rewrite Ei in E. injection E as <-. rewrite !upd_same. auto.
            * assert (w <> i) by (intros ->; apply N1; eapply B; eauto). rewrite !(upd_other _ u), !(upd_other _ i) by auto. rewrite upd_other by (unfold c, b, a; lia). apply H; auto. rewrite DO; auto.
        - intros h Hh. rewrite !Hh by (auto; apply NI; unfold c, b, a; lia).
          assert (X1 : upd (upd (upd g c x) i y) j z a = f u). { rewrite !upd_other by (unfold c, b, a; lia). apply H; auto. }
          assert (X2 : upd (upd (upd g c x) i y) j z b = f v). { rewrite !upd_other by (unfold c, b, a; lia). apply H; auto. }
          assert (X3 : upd (upd (upd g c x) i y) j z c = x). { rewrite !(upd_other _ _ _ c) by (unfold c, b, a; lia). rewrite upd_same; auto. }
          assert (X4 : upd (upd (upd g c x) i y) j z i = y). { rewrite upd_other by auto. rewrite upd_same; auto. }
          rewrite X1, X2, X3, X4, upd_same. auto. }
      rewrite !T. cbn [app_op].
      assert (Z : forall y z, czl (f u) y false * czr false (f v) z + czl (f u) y true * czr true (f v) z = if eqb (f u) y && eqb (f v) z then sgn (y && z) else C0) by (intros; apply HS).
      transitivity (k * psi (upd (upd f u false) v false) * (if eqb (f u) false && eqb (f v) false then sgn (false && false) else C0)
        + k * psi (upd (upd f u false) v true) * (if eqb (f u) false && eqb (f v) true then sgn (false && true) else C0)
        + k * psi (upd (upd f u true) v false) * (if eqb (f u) true && eqb (f v) false then sgn (true && false) else C0)
        + k * psi (upd (upd f u true) v true) * (if eqb (f u) true && eqb (f v) true then sgn (true && true) else C0)).
      { rewrite <- !Z. ring. }
      assert (W : upd (upd f u (f u)) v (f v) = f) by (rewrite upd_id; apply upd_id).
      revert W. destruct (f u), (f v); cbn [eqb andb sgn]; intros W; rewrite W; ring.
Qed.
Lemma held_two cs dang next lv k psi u v i j (ts : list tensor) : cs = map tcore ts -> reps cs dang next lv k psi -> lv u -> lv v -> u <> v ->
  dget dang u = Some i -> dget dang v = Some j ->
  (length (filter (fun t => lmem i (t_inds t) || lmem j (t_inds t)) ts) <? 2)%nat = false.
Proof.
  intros Ec RP Hu Hv Ne Ei Ej. apply Nat.ltb_ge. destruct RP as [A B C _].
  assert (X : forall w x, lv w -> dget dang w = Some x -> exists t, In t ts /\ In x (t_inds t)).
  { intros w x Hw E. destruct (A w Hw) as (y & E' & (c & Hc & Hy) & _). rewrite E in E'. injection E' as <-. subst cs. apply in_map_iff in Hc. destruct Hc as (t & <- & Ht). exists t; auto. }
  destruct (X u i Hu Ei) as (t1 & T1 & T1'). destruct (X v j Hv Ej) as (t2 & T2 & T2').
  set (F := filter _ ts). assert (F1 : In t1 F). { apply filter_In. split; auto. apply orb_true_iff. left. apply lmem_In; auto. }
  assert (F2 : In t2 F). { apply filter_In. split; auto. apply orb_true_iff. right. apply lmem_In; auto. }
  destruct F as [|x [|y F]]; simpl; try lia; [destruct F1|]. exfalso. destruct F1 as [<-|[]], F2 as [<-|[]].
  apply Ne. eapply (C (tcore x)); eauto. subst cs. apply in_map; auto.
Qed.

(** * One command *)
Lemma orth_vec p a r : (if r : bool then vmul (orth_op p) (planar_state p a) else planar_state p a) ~v planar_state p (a + b2R r).
Proof.
  destruct r; cbn [b2R]; [|rewrite Rplus_0_r; apply veqp_refl].
  assert (HS : ((a + 1) * PI / 2 = a * PI / 2 + PI / 2)%R) by field.
  destruct p; unfold planar_state, orth_op; rewrite ?HS, ?cos_plus, ?sin_plus, ?cos_PI2, ?sin_PI2.
  - exists C1. split; [apply phase_1|]. assert (E : cis (a + 1) = - cis a).
    { unfold cis. replace ((a + 1) * PI)%R with (a * PI + PI)%R by ring. rewrite neg_cos, neg_sin. apply C_eq; cbn; ring. }
    rewrite E. apply vec2_eq; cbn [vmul vscale mZ m00 m01 m10 m11 v0 v1]; ring.
  - exists (- Ci). split; [apply phase_mi|]. apply vec2_eq; apply C_eq; cbn; ring.
  - exists Ci. split; [apply phase_i|]. apply vec2_eq; apply C_eq; cbn; ring.
Qed.
Lemma plus_norm b : Cnorm2 (vget plus_state b) = (1 / 2)%R.
Proof.
  assert (H : (/ sqrt 2 * / sqrt 2 = 1 / 2)%R). { assert (sqrt 2 * sqrt 2 = 2)%R by (apply sqrt_sqrt; lra). assert (sqrt 2 <> 0)%R by (intros E; rewrite E in *; lra). apply (Rmult_eq_reg_l (sqrt 2 * sqrt 2)); [|rewrite H; lra]. rewrite H at 2. field_simplify; auto; lra. }
  assert (E0 : cis 0 = C1) by (unfold cis; rewrite Rmult_0_l, cos_0, sin_0; reflexivity).
  unfold plus_state, planar_state. rewrite E0. destruct b; unfold Cnorm2; cbn; rewrite <- H; ring.
Qed.
Lemma buffer_iso : (1 / sqrt (1 / 2) = sqrt 2)%R.
Proof.
  assert (H2 : (sqrt 2 * sqrt 2 = 2)%R) by (apply sqrt_sqrt; lra). assert (HN : (sqrt 2 <> 0)%R) by (intros E; rewrite E in *; lra).
  replace (1 / 2)%R with (/ 2)%R by field. rewrite sqrt_inv. field. auto.
Qed.
Lemma runnable_measured inp l n : runnable inp l -> measured_in l n -> In n inp \/ prepared_in l n.
Proof.
  intros HR (m & s & t & H). apply in_split in H. destruct H as (a & b & ->). destruct (HR a _ b eq_refl) as [[[K|K] _] _]; auto. right. apply prepared_app; auto.
Qed.
Section Run.
Variables (czl czr : bool -> bool -> bool -> C) (sel : selector) (g : rng) (inp : list nat) (psi0 : state).
Hypothesis HCZ : cz_split czl czr.
Definition open1 (N : tnet) : Prop := forall t i, In t (tn_ts N) -> t_open t = true -> t_inds t = [i] -> forall h, t_data t h = vget plus_state (h i).
(** node [n] is the target of a command other than N and M *)
Definition touches (n : nat) (c : cmd) : bool :=
  match c with CE u v => (u =? n)%nat || (v =? n)%nat | CX m _ | CZ m _ | CC m _ => (m =? n)%nat | _ => false end.
Definition touched (l : list cmd) (n : nat) : bool := existsb (touches n) l.
(** the only tensor of node [n] is a vector *)
Definition vec_only (N : tnet) (n : nat) : Prop := exists i, dget (tn_dang N) n = Some i
  /\ (exists t, In t (tn_ts N) /\ t_node t = n /\ t_open t = true) /\ forall t, In t (tn_ts N) -> t_node t = n -> t_inds t = [i].
Record TInv (pre : list cmd) (st : tsim) : Prop := {
  ti_node : forall t, In t (tn_ts (tb_net (ts_bk st))) -> In (t_node t) inp \/ prepared_in pre (t_node t);
  ti_vec : forall n, live inp pre n -> touched pre n = false -> vec_only (tb_net (ts_bk st)) n;
  ti_res : forall k, (exists b, dget (ts_res st) k = Some b) <-> measured_in pre k;
  ti_open : open1 (tb_net (ts_bk st));
  ti_reps : exists c, phase c /\ reps (map tcore (tn_ts (tb_net (ts_bk st)))) (tn_dang (tb_net (ts_bk st))) (tn_next (tb_net (ts_bk st)))
     (live inp pre) (c * RtoC (sqrt 2 ^ length (ms_of pre))) (den (seq_ops (outc (ts_res st)) pre) psi0) }.
Lemma open1_close i ts : (forall t j, In t ts -> t_open t = true -> t_inds t = [j] -> forall h, t_data t h = vget plus_state (h j)) ->
  forall t j, In t (close_first i ts) -> t_open t = true -> t_inds t = [j] -> forall h, t_data t h = vget plus_state (h j).
Proof.
  induction ts as [|t0 ts IH]; intros H t j Ht; [destruct Ht|]. cbn [close_first] in Ht. destruct (lmem i (t_inds t0)).
  - destruct Ht as [<-|Ht]; [discriminate|]. apply (H t j); right; auto.
  - destruct Ht as [<-|Ht]; [apply (H t0 j); left; auto|]. apply IH; auto. intros t' j' Ht'. apply H; right; auto.
Qed.
Lemma close_in i ts t : In t (close_first i ts) -> exists t0, In t0 ts /\ t_node t = t_node t0 /\ t_inds t = t_inds t0.
Proof.
  induction ts as [|t0 ts IH]; intros Ht; [destruct Ht|]. cbn [close_first] in Ht. destruct (lmem i (t_inds t0)).
  - destruct Ht as [<-|Ht]; [exists t0; split; [left; auto|auto]|]. exists t; split; [right; auto|auto].
  - destruct Ht as [<-|Ht]; [exists t0; split; [left; auto|auto]|]. destruct (IH Ht) as (t1 & A & B). exists t1. split; [right; auto|auto].
Qed.
Lemma close_keep i ts t : In t ts -> ~ In i (t_inds t) -> In t (close_first i ts).
Proof.
  induction ts as [|t0 ts IH]; intros Ht Hi; [destruct Ht|]. cbn [close_first]. destruct (lmem i (t_inds t0)) eqn:E.
  - destruct Ht as [<-|Ht]; [apply lmem_In in E; tauto|right; auto].
  - destruct Ht as [<-|Ht]; [left; auto|right; auto].
Qed.
(** tensors of other nodes are added, and tensors holding other indices closed *)
Lemma vec_only_close N n j ts' dang' next' : vec_only N n -> dget dang' n = dget (tn_dang N) n -> dget (tn_dang N) n <> Some j ->
  (forall t, In t ts' -> t_node t <> n) -> vec_only (TN (close_first j (tn_ts N) ++ ts') dang' next') n.
Proof.
  intros (i & E & (t & T1 & T2 & T3) & A) D Nj HT. exists i. cbn [tn_dang tn_ts]. split; [congruence|]. assert (i <> j) by congruence. split.
  - exists t. split; auto. apply in_or_app. left. apply close_keep; auto. rewrite (A t T1 T2). intros [K|[]]; auto.
  - intros t' Ht' Hn. apply in_app_or in Ht'. destruct Ht' as [Ht'|Ht']; [|destruct (HT _ Ht' Hn)]. apply close_in in Ht'. destruct Ht' as (t0 & T0 & E1 & E2). rewrite E2. apply A; congruence.
Qed.
Lemma touched_snoc l c n : touched (l ++ [c]) n = false -> touched l n = false /\ touches n c = false.
Proof. unfold touched. rewrite existsb_app. cbn [existsb]. rewrite orb_false_r, orb_false_iff. auto. Qed.
Lemma live_same pre c n : (forall n m s t, c <> CM n m s t) -> (forall n s, c <> CN n s) -> live inp pre n <-> live inp (pre ++ [c]) n.
Proof.
  intros H1 H2. unfold live. rewrite measured_app, prepared_app, measured_one, prepared_one. split.
  - intros [A B]. split; [tauto|]. intros [K|(m & s & t & E)]; [auto|]. eapply H1; eauto.
  - intros [A B]. split; [|tauto]. destruct A as [A|[A|(s & E)]]; auto. exfalso. eapply H2; eauto.
Qed.
Definition skipped (b : tbackend) (c : cmd) : Prop := tb_seq b = true \/ isN (kind_of c) || isE (kind_of c) = false.
Definition plus_preps (l : list cmd) : Prop := forall n s, In (CN n s) l -> s = SPlus.
(** the answers of the selector, which is asked twice with probability 1/2 *)
Definition asked (n : nat) (k : nat) (b : bool) (k' : nat) : Prop :=
  exists k1 b2, sel_measure sel g k n (1 / 2) = Ok (b, k1) /\ sel_measure sel g k1 n (1 / 2) = Ok (b2, k').
Definition ask_fails (n : nat) (k : nat) (e : err) : Prop :=
  sel_measure sel g k n (1 / 2) = Err e \/ exists b k1, sel_measure sel g k n (1 / 2) = Ok (b, k1) /\ sel_measure sel g k1 n (1 / 2) = Err e.
Lemma tn_step_inv pre c st : runnable inp (pre ++ [c]) -> cmd_sem_ok c = true -> plus_preps [c] -> skipped (ts_bk st) c -> TInv pre st ->
  match tn_step czl czr sel g st c with
  | Ok st' => TInv (pre ++ [c]) st' /\ tb_seq (ts_bk st') = tb_seq (ts_bk st) /\ tb_iso (ts_bk st') = tb_iso (ts_bk st)
      /\ (forall k, measured_in pre k -> dget (ts_res st') k = dget (ts_res st) k)
      /\ ((forall n m s t, c <> CM n m s t) -> ts_rng st' = ts_rng st)
      /\ (forall n m s t, c = CM n m s t -> asked n (ts_rng st) (outc (ts_res st') n) (ts_rng st'))
  | Err e => exists n m s t, c = CM n m s t /\ (ask_fails n (ts_rng st) e \/ In n (tb_iso (ts_bk st)) /\ touched pre n = true /\ (e = EValue \/ e = ERuntime))
  end.
Proof.
  intros HR HS HP SK HI. pose proof HR as HR0. apply runnable_snoc in HR. destruct HR as [HR HC].
  pose proof HI as [IN IV I1 I2 (c0 & PH & I3)].
  assert (DOM : forall d, (forall k, mem k d = true -> measured_in pre k) -> res_parity (ts_res st) d = Ok (parity (outc (ts_res st)) d)).
  { intros d Hd. apply res_parity_ok. intros k Hk. apply I1, Hd; auto. }
  assert (ME : forall k, (forall n m s t, c <> CM n m s t) -> measured_in (pre ++ [c]) k <-> measured_in pre k).
  { intros k H. rewrite measured_app. split; auto. intros [K|K]; auto. apply measured_one in K. destruct K as (m & s & t & E). destruct (H _ _ _ _ E). }
  assert (MS : (forall n m s t, c <> CM n m s t) -> ms_of (pre ++ [c]) = ms_of pre).
  { intros H. unfold ms_of. rewrite flat_map_app. cbn [flat_map]. destruct c; try (rewrite !app_nil_r; reflexivity). destruct (H _ _ _ _ eq_refl). }
  assert (AP : forall n U, (forall n m s t, c <> CM n m s t) -> (forall n s, c <> CN n s) -> seq_ops (outc (ts_res st)) [c] = [OApp1 U n] -> live inp pre n ->
     exists b', tb_apply (ts_bk st) n U = Ok b' /\ TInv (pre ++ [c]) (TSim b' (ts_res st) (ts_rng st)) /\ tb_seq b' = tb_seq (ts_bk st) /\ tb_iso b' = tb_iso (ts_bk st)).
  { intros n U H1 H2 E HL. unfold tb_apply, tn_evolve_single. destruct (rp_dang _ _ _ _ _ _ I3 n HL) as (old & Eo & _). rewrite Eo. cbn [rbind].
    eexists. split; [reflexivity|]. split; [|split; reflexivity]. constructor; cbn [ts_bk ts_res tb_net tn_ts tn_dang tn_next].
    - intros t Ht. apply in_app_or in Ht. rewrite prepared_app. destruct Ht as [Ht|[<-|[]]]; [apply close_in in Ht; destruct Ht as (t0 & T0 & -> & _); destruct (IN t0 T0); auto|]. cbn [t_node]. destruct HL as [[K|K] _]; auto.
    - intros x Hx HT. apply (live_same pre c x H1 H2) in Hx. apply touched_snoc in HT. destruct HT as [HT HT'].
      assert (Nx : x <> n). { intros ->. destruct c as [| | |n' d'|n' d'|n' c'| |]; cbn in E, HT'; try discriminate; try (destruct (parity _ _); try discriminate); injection E as E1 E2; subst n'; rewrite Nat.eqb_refl in HT'; discriminate. }
      apply vec_only_close; [apply IV; auto|rewrite dget_dset; destruct (Nat.eqb_spec n x); congruence| |intros t [<-|[]]; cbn; auto].
      intros K. apply Nx. eapply (rp_inj _ _ _ _ _ _ I3); eauto.
    - intros k. rewrite ME by auto. apply I1.
    - intros t i Ht. cbn [tn_ts] in Ht. apply in_app_or in Ht. destruct Ht as [Ht|[<-|[]]]; [|discriminate]. apply (open1_close _ _ I2 t i Ht).
    - exists c0. split; auto. rewrite MS by auto. rewrite map_app, close_core, seq_ops_app, E, den_app.
      eapply reps_ext; [intros m; apply (live_same pre c m H1 H2)|intros f; reflexivity|]. cbn [den map tcore t_inds t_data].
      apply reps_evolve; auto. }
  assert (SKIP : seq_ops (outc (ts_res st)) [c] = [] -> (forall n m s t, c <> CM n m s t) -> (forall n s, c <> CN n s) -> TInv (pre ++ [c]) st).
  { intros E H1 H2. constructor; auto.
    - intros t Ht. rewrite prepared_app. destruct (IN t Ht); auto.
    - intros x Hx HT. apply (live_same pre c x H1 H2) in Hx. apply touched_snoc in HT. destruct HT as [HT HT']. auto.
    - intros k. rewrite ME by auto. apply I1.
    - exists c0. split; auto. rewrite MS by auto. rewrite seq_ops_app, E, app_nil_r. eapply reps_ext; [intros m; apply (live_same pre c m H1 H2)|intros f; reflexivity|auto]. }
  destruct c as [n s|u v|n m s t|n d|n d|n cl|n d|]; cbn [tn_step].
  - (* N *) assert (s = SPlus) by (apply (HP n); left; auto). subst s. cbn [tb_add_nodes].
    destruct SK as [SK|SK]; [|discriminate]. rewrite SK. cbn [rbind fold_left]. unfold tn_add_qubit.
    split; [|split; [reflexivity|split; [reflexivity|split; [auto|split; [auto|intros; discriminate]]]]].
    assert (NL : ~ live inp pre n) by (destruct HC; intros [[K|K] _]; auto).
    constructor; cbn [ts_bk ts_res tb_net tn_ts tn_dang tn_next].
    + intros t Ht. apply in_app_or in Ht. rewrite prepared_app, prepared_one. destruct Ht as [Ht|[<-|[]]]; [destruct (IN t Ht); auto|]. cbn [t_node]. eauto.
    + intros x Hx HT. apply touched_snoc in HT. destruct HT as [HT _]. destruct (Nat.eq_dec x n) as [->|Nx].
      * exists (tn_next (tb_net (ts_bk st))). cbn [tn_dang tn_ts]. rewrite dget_dset, Nat.eqb_refl. split; auto. split; [eexists; split; [apply in_or_app; right; left; reflexivity|auto]|].
        intros t Ht Et. apply in_app_or in Ht. destruct Ht as [Ht|[<-|[]]]; [|auto]. exfalso. destruct HC as [HC1 HC2]. destruct (IN t Ht) as [K|K]; rewrite Et in K; auto.
      * assert (Lx : live inp pre x). { destruct Hx as [A B]. rewrite measured_app in B. rewrite prepared_app, prepared_one in A. split; [|tauto]. destruct A as [A|[A|(s & [= ->])]]; tauto. }
        destruct (IV x Lx HT) as (i & E & (t & T1 & T2 & T3) & A). exists i. cbn [tn_dang tn_ts]. rewrite dget_dset. destruct (Nat.eqb_spec n x); [congruence|]. split; auto. split; [exists t; split; [apply in_or_app; auto|auto]|].
        intros t' Ht' Et. apply in_app_or in Ht'. destruct Ht' as [Ht'|[<-|[]]]; [auto|cbn in Et; congruence].
    + intros k. rewrite ME by (intros; discriminate). apply I1.
    + intros t i Ht. cbn [tn_ts] in Ht. apply in_app_or in Ht. destruct Ht as [Ht|[<-|[]]]; [apply I2; auto|]. intros _ [= <-] h. reflexivity.
    + exists c0. split; auto. rewrite MS by (intros; discriminate). rewrite map_app, seq_ops_app, den_app. cbn [seq_ops flat_map cmd_ops app den nstate_vec map tcore t_inds t_data].
      eapply reps_ext; [|intros f; reflexivity|apply reps_prep; eauto].
      intros m. unfold live. rewrite measured_app, prepared_app, measured_one, prepared_one. split.
      * intros [->|[A B]]; [split; [eauto|]|split; [tauto|]].
        -- intros [K|(? & ? & ? & K)]; [|discriminate]. destruct HC. destruct (runnable_measured inp pre n HR K); auto.
        -- intros [K|(? & ? & ? & K)]; [auto|discriminate].
      * intros [A B]. destruct A as [A|[A|(s & [= ->])]]; auto; right; split; auto; intros K; apply B; auto.
  - (* E *) destruct HC as [Lu Lv]. cbn [cmd_sem_ok] in HS. apply negb_true_iff, Nat.eqb_neq in HS.
    destruct SK as [SK|SK]; [|discriminate]. unfold tb_entangle. rewrite SK. unfold tn_entangle.
    destruct (rp_dang _ _ _ _ _ _ I3 u Lu) as (i & Ei & _). destruct (rp_dang _ _ _ _ _ _ I3 v Lv) as (j & Ej & _). rewrite Ei, Ej.
    rewrite (held_two _ _ _ _ _ _ u v i j (tn_ts (tb_net (ts_bk st))) eq_refl I3 Lu Lv HS Ei Ej). cbn [rbind].
    split; [|split; [reflexivity|split; [reflexivity|split; [auto|split; [auto|intros; discriminate]]]]].
    constructor; cbn [ts_bk ts_res tb_net tn_ts tn_dang tn_next].
    + intros t Ht. apply in_app_or in Ht. rewrite prepared_app. destruct Ht as [Ht|[<-|[<-|[]]]].
      * apply close_in in Ht. destruct Ht as (t0 & T0 & -> & _). apply close_in in T0. destruct T0 as (t1 & T1 & -> & _). destruct (IN t1 T1); auto.
      * cbn [t_node]. destruct Lu as [[K|K] _]; auto.
      * cbn [t_node]. destruct Lv as [[K|K] _]; auto.
    + intros x Hx HT. apply (live_same pre (CE u v) x) in Hx; try (intros; discriminate). apply touched_snoc in HT. destruct HT as [HT HT']. cbn in HT'. apply orb_false_iff in HT'. destruct HT' as [Xu Xv]. apply Nat.eqb_neq in Xu, Xv.
      apply (vec_only_close (TN (close_first i (tn_ts (tb_net (ts_bk st)))) (tn_dang (tb_net (ts_bk st))) 0)).
      * rewrite <- (app_nil_r (close_first i _)). apply vec_only_close; [apply IV; auto|auto| |intros t []]. intros K. apply Xu. eapply (rp_inj _ _ _ _ _ _ I3); eauto.
      * cbn [tn_dang]. rewrite !dget_dset. destruct (Nat.eqb_spec v x), (Nat.eqb_spec u x); congruence.
      * cbn [tn_dang]. intros K. apply Xv. eapply (rp_inj _ _ _ _ _ _ I3); eauto.
      * intros t [<-|[<-|[]]]; cbn; auto.
    + intros k. rewrite ME by (intros; discriminate). apply I1.
    + intros t x Ht. cbn [tn_ts] in Ht. apply in_app_or in Ht. destruct Ht as [Ht|[<-|[<-|[]]]]; [|discriminate|discriminate]. apply (open1_close _ _ (open1_close _ _ I2) t x Ht).
    + exists c0. split; auto. rewrite MS by (intros; discriminate). rewrite map_app, !close_core, seq_ops_app, den_app. cbn [seq_ops flat_map cmd_ops app den map tcore t_inds t_data].
      eapply reps_ext; [intros m; apply (live_same pre (CE u v) m); intros; discriminate|intros f; reflexivity|]. apply (reps_cz czl czr _ _ _ _ _ _ u v i j HCZ I3); auto.
  - (* M *) destruct HC as [HL HD]. rewrite (DOM s), (DOM t) by (intros; apply HD; auto). cbn [rbind].
    set (m' := if parity (outc (ts_res st)) t then meas_clifford (if parity (outc (ts_res st)) s then meas_clifford m K1 else m) K3 else if parity (outc (ts_res st)) s then meas_clifford m K1 else m).
    assert (Em : m' = describe_measurement (outc (ts_res st)) m s t) by reflexivity. clearbody m'.
    destruct (rp_dang _ _ _ _ _ _ I3 n HL) as (old & Eo & _).
    (* what happens once the probabilities are known *)
    set (N := tb_net (ts_bk st)) in *. set (iso := lmem n (tb_iso (ts_bk st))).
    set (pv := if iso then match open_tensor N n with
              | None => Err EValue
              | Some t => match t_inds t with
                          | [i] => let q x := Cnorm2 (t_data t (fun _ => x)) in
                                   let s := (q false + q true)%R in Ok (q false / s, q true / s)%R
                          | _ => Err ERuntime
                          end
              end
            else Ok (1 / 2, 1 / 2)%R).
    assert (PV : pv = Ok (1 / 2, 1 / 2)%R \/ (iso = true /\ touched pre n = true) /\ (pv = Err EValue \/ pv = Err ERuntime)).
    { unfold pv. destruct iso; [|left; reflexivity]. destruct (touched pre n) eqn:TC.
      2:{ left. destruct (IV n HL TC) as (i & _ & (t1 & T1 & T2 & T3) & TA). unfold open_tensor. fold N in T1, TA. destruct (find _ (tn_ts N)) as [t0|] eqn:EO.
          - apply find_some in EO. destruct EO as [In0 EO]. apply andb_true_iff in EO. destruct EO as [EN EO]. apply Nat.eqb_eq in EN. rewrite (TA t0 In0 EN). cbv zeta. rewrite !(I2 t0 i In0 EO (TA t0 In0 EN)). rewrite !plus_norm. f_equal. f_equal; field.
          - apply find_none with (x := t1) in EO; auto. cbv beta in EO. rewrite T2, Nat.eqb_refl, T3 in EO. discriminate. }
      destruct (open_tensor N n) as [t0|] eqn:EO; [|right; auto].
      apply find_some in EO. destruct EO as [In0 EO]. apply andb_true_iff in EO. destruct EO as [_ EO].
      destruct (t_inds t0) as [|i [|? ?]] eqn:Ei; [right; auto| |right; auto]. left. cbv zeta. rewrite !(I2 t0 i In0 EO Ei). rewrite !plus_norm. f_equal. f_equal; field. }
    unfold tb_measure. fold N iso. fold pv. clearbody pv.
    destruct PV as [-> | [[Ei ET] [-> | ->]]].
    2:{ cbn [rbind]. exists n, m, s, t. split; auto. right. split; [apply lmem_In; auto|split; auto]. }
    2:{ cbn [rbind]. exists n, m, s, t. split; auto. right. split; [apply lmem_In; auto|split; auto]. }
    cbn [rbind fst snd]. destruct (sel_measure sel g (ts_rng st) n (1 / 2)) as [[r k1]|e] eqn:S1; cbn [rbind fst snd].
    2:{ exists n, m, s, t. split; auto. left. left. auto. }
    destruct (to_bloch m') as [a p] eqn:Eb.
    destruct (sel_measure sel g k1 n (1 / 2)) as [[r2 k2]|e] eqn:S2; cbn [rbind fst snd].
    2:{ exists n, m, s, t. split; auto. left. right. exists r, k1. auto. }
    unfold tn_project. rewrite Eo. cbn [rbind].
    replace (if iso then (1 / sqrt (if r then 1 / 2 else 1 / 2))%R else sqrt 2) with (sqrt 2) by (destruct iso, r; rewrite ?buffer_iso; reflexivity).
    assert (NM : ~ measured_in pre n) by apply HL.
    split; [|split; [reflexivity|split; [reflexivity|split; [|split]]]].
    + constructor; cbn [ts_bk ts_res tb_net tn_ts tn_dang tn_next].
      * intros t0 Ht. apply in_app_or in Ht. rewrite prepared_app. destruct Ht as [Ht|[<-|[]]]; [apply close_in in Ht; destruct Ht as (t1 & T0 & -> & _); destruct (IN t1 T0); auto|]. cbn [t_node]. destruct HL as [[K|K] _]; auto.
      * intros x Hx HT. apply touched_snoc in HT. destruct HT as [HT _].
        assert (LX : live inp pre x /\ x <> n). { destruct Hx as [A B]. rewrite measured_app, measured_one in B. rewrite prepared_app, prepared_one in A. split; [split; [|tauto]|intros ->; apply B; eauto]. destruct A as [A|[A|(? & K)]]; auto; discriminate. }
        destruct LX as [Lx Nx]. apply vec_only_close; [apply IV; auto|auto| |intros t0 [<-|[]]; cbn; auto]. intros K. apply Nx. eapply (rp_inj _ _ _ _ _ _ I3); eauto.
      * intros k. rewrite measured_app, measured_one, dget_dset. destruct (Nat.eqb_spec n k) as [->|Ne]; [split; eauto|]. rewrite I1. split; auto. intros [K|(? & ? & ? & [= ->])]; tauto.
      * intros t0 x Ht. cbn [tn_ts] in Ht. apply in_app_or in Ht. destruct Ht as [Ht|[<-|[]]]; [|discriminate]. apply (open1_close _ _ I2 t0 x Ht).
      * destruct (orth_vec p a r) as (c1 & PH1 & E1).
        assert (DE : den (seq_ops (outc (dset (ts_res st) n r)) (pre ++ [CM n m s t])) psi0 = app_op (OMeas (planar_state p (a + b2R r)) n) (den (seq_ops (outc (ts_res st)) pre) psi0)).
        { rewrite seq_ops_app, den_app, outc_dset. rewrite (seq_ops_ext' inp pre (with_out (outc (ts_res st)) n r) (outc (ts_res st)) HR).
          2:{ intros k Hk. unfold with_out. destruct (Nat.eqb_spec n k); subst; tauto. }
          cbn [seq_ops flat_map cmd_ops app den]. f_equal. f_equal. unfold mvec.
          assert (EQ : describe_measurement (with_out (outc (ts_res st)) n r) m s t = m').
          { rewrite Em. unfold describe_measurement. rewrite !(parity_ext (with_out (outc (ts_res st)) n r) (outc (ts_res st))); auto; intros k Hk; unfold with_out; destruct (Nat.eqb_spec n k) as [->|]; auto; exfalso; apply NM, HD; auto. }
          rewrite EQ, Eb. unfold with_out at 1. rewrite Nat.eqb_refl. reflexivity. }
        rewrite DE. exists (Cconj c1 * c0). split; [apply phase_mul; auto; unfold phase in *; rewrite Cnorm2_conj; auto|].
        rewrite map_app, close_core. cbn [map tcore t_inds t_data]. 
        assert (VE : vscale (RtoC (sqrt 2)) (if r then vmul (orth_op p) (planar_state p a) else planar_state p a) = vscale (RtoC (sqrt 2) * c1) (planar_state p (a + b2R r))).
        { rewrite E1. apply vec2_eq; cbn [vscale v0 v1]; ring. }
        rewrite VE. eapply reps_ext; [| |apply reps_project; eauto].
        -- intros k. unfold live. rewrite measured_app, prepared_app, measured_one, prepared_one. split.
           ++ intros [[A B] Ne]. split; [tauto|]. intros [K|(? & ? & ? & [= ->])]; tauto.
           ++ intros [A B]. split; [split; [|tauto]|intros ->; apply B; eauto]. destruct A as [A|[A|(? & K)]]; auto; discriminate.
        -- intros f. unfold ms_of. rewrite flat_map_app. cbn [flat_map]. rewrite app_nil_r, app_length. cbn [length]. rewrite Nat.add_1_r. cbn [pow].
           rewrite Cconj_mul. assert (ER : forall x y, RtoC (x * y) = RtoC x * RtoC y) by (intros; apply C_eq; cbn; ring). rewrite ER. assert (EC : Cconj (RtoC (sqrt 2)) = RtoC (sqrt 2)) by (apply C_eq; cbn; ring). rewrite EC. unfold ms_of. ring.
    + intros k Hk. cbn [ts_res]. rewrite dget_dset. destruct (Nat.eqb_spec n k) as [->|]; tauto.
    + intros H. destruct (H _ _ _ _ eq_refl).
    + intros n' m0 s' t' [= <- <- <- <-]. exists k1, r2. cbn [ts_res ts_rng]. unfold outc. rewrite dget_dset, Nat.eqb_refl. auto.
  - (* X *) destruct HC as [HL HD]. rewrite (DOM d HD). cbn [rbind]. destruct (parity (outc (ts_res st)) d) eqn:Ep.
    + destruct (AP n mX) as (b' & Eb & HI' & A1 & A2); auto; try (intros; discriminate). { cbn. rewrite Ep. auto. }
      rewrite Eb. cbn [rbind]. split; auto. split; auto. split; auto. split; auto. split; auto. intros; discriminate.
    + split; [|split; auto; split; auto; split; auto; split; auto; intros; discriminate]. apply SKIP; try (intros; discriminate). cbn. rewrite Ep. auto.
  - (* Z *) destruct HC as [HL HD]. rewrite (DOM d HD). cbn [rbind]. destruct (parity (outc (ts_res st)) d) eqn:Ep.
    + destruct (AP n mZ) as (b' & Eb & HI' & A1 & A2); auto; try (intros; discriminate). { cbn. rewrite Ep. auto. }
      rewrite Eb. cbn [rbind]. split; auto. split; auto. split; auto. split; auto. split; auto. intros; discriminate.
    + split; [|split; auto; split; auto; split; auto; split; auto; intros; discriminate]. apply SKIP; try (intros; discriminate). cbn. rewrite Ep. auto.
  - (* C *) destruct (AP n (clifford_mat cl)) as (b' & Eb & HI' & A1 & A2); auto; try (intros; discriminate).
    rewrite Eb. cbn [rbind]. split; auto. split; auto. split; auto. split; auto. split; auto. intros; discriminate.
  - discriminate.
  - split; [|split; auto; split; auto; split; auto; split; auto; intros; discriminate]. apply SKIP; auto; intros; discriminate.
Qed.
End Run.

(** * All commands *)
(** the outcomes [o] are the answers of the selector, asked in program order
    twice per measurement with probability 1/2, its second answer being dropped *)
Inductive tselected (sel : selector) (g : rng) : list cmd -> (nat -> bool) -> nat -> Prop :=
| tsel_nil o : tselected sel g [] o 0
| tsel_other l c o k : tselected sel g l o k -> (forall n m s t, c <> CM n m s t) -> tselected sel g (l ++ [c]) o k
| tsel_meas l n m s t o k k' : tselected sel g l o k -> asked sel g n k (o n) k' -> tselected sel g (l ++ [CM n m s t]) o k'.
Definition tfails (sel : selector) (g : rng) (iso : list nat) (l : list cmd) (e : err) : Prop :=
  exists a n m s t b o k, l = a ++ CM n m s t :: b /\ tselected sel g a o k /\
    (ask_fails sel g n k e \/ In n iso /\ touched a n = true /\ (e = EValue \/ e = ERuntime)).
Lemma tselected_ext sel g l o k : tselected sel g l o k -> forall o', (forall n, measured_in l n -> o n = o' n) -> tselected sel g l o' k.
Proof.
  induction 1 as [o|l c o k HS IH HC|l n m s t o k k' HS IH HM]; intros o' HO.
  - constructor.
  - constructor; auto. apply IH. intros; apply HO, measured_snoc; auto.
  - eapply tsel_meas; [apply IH; intros; apply HO, measured_snoc; auto|]. rewrite <- HO; eauto. apply measured_app. right. apply measured_one. eauto.
Qed.
Lemma tfails_snoc sel g iso l c e : tfails sel g iso l e -> tfails sel g iso (l ++ [c]) e.
Proof. intros (a & n & m & s & t & b & o & k & -> & H). exists a, n, m, s, t, (b ++ [c]), o, k. rewrite <- app_assoc. auto. Qed.
(** [a]: the commands already accounted for in the initial network *)
Lemma tn_fold czl czr sel g inp psi0 a st0 l : cz_split czl czr -> TInv inp psi0 a st0 -> ts_rng st0 = 0%nat -> tselected sel g a (outc (ts_res st0)) 0 ->
  runnable inp (a ++ l) -> sem_ok l = true -> plus_preps l -> (forall c, In c l -> skipped (ts_bk st0) c) ->
  match rfold (tn_step czl czr sel g) l st0 with
  | Ok st => TInv inp psi0 (a ++ l) st /\ tselected sel g (a ++ l) (outc (ts_res st)) (ts_rng st)
      /\ tb_seq (ts_bk st) = tb_seq (ts_bk st0) /\ tb_iso (ts_bk st) = tb_iso (ts_bk st0)
  | Err e => tfails sel g (tb_iso (ts_bk st0)) (a ++ l) e
  end.
Proof.
  intros HCZ H0 K0 SA. induction l as [|c l IH] using rev_ind; intros HR HS HP HK.
  - simpl. rewrite app_nil_r. split; auto. split; auto. rewrite K0; auto.
  - rewrite app_assoc in HR. pose proof HR as HR0. apply runnable_snoc in HR. destruct HR as [HR HC].
    unfold sem_ok in HS. rewrite forallb_app in HS. apply andb_true_iff in HS. destruct HS as [HS1 HS2]. cbn [forallb] in HS2. rewrite andb_true_r in HS2.
    assert (HP1 : plus_preps l) by (intros n v Hn; apply (HP n v), in_or_app; auto).
    assert (HP2 : plus_preps [c]) by (intros n v Hn; apply (HP n v), in_or_app; auto).
    specialize (IH HR HS1 HP1 (fun c0 H => HK c0 (in_or_app _ _ _ (or_introl H)))). rewrite rfold_app, app_assoc.
    destruct (rfold (tn_step czl czr sel g) l st0) as [st|e]; [|apply tfails_snoc; auto].
    destruct IH as (HI & HSel & E1 & E2). cbn [rfold].
    assert (SK : skipped (ts_bk st) c). { unfold skipped. rewrite E1. apply HK. apply in_or_app; right; left; auto. }
    pose proof (tn_step_inv czl czr sel g inp psi0 HCZ (a ++ l) c st HR0 HS2 HP2 SK HI) as ST.
    destruct (tn_step czl czr sel g st c) as [st'|e].
    + destruct ST as (HI' & F1 & F2 & HQ & HG & HM). split; auto. split; [|split; congruence].
      assert (EX : forall n, measured_in (a ++ l) n -> outc (ts_res st) n = outc (ts_res st') n) by (intros n Hn; unfold outc; rewrite HQ; auto).
      pose proof (tselected_ext _ _ _ _ _ HSel _ EX) as HSel'.
      assert (D : (exists n m s t, c = CM n m s t) \/ (forall n m s t, c <> CM n m s t)) by (destruct c; eauto 6; right; discriminate).
      destruct D as [(n & m & s & t & ->)|D].
      * eapply tsel_meas; [exact HSel'|]. apply (HM n m s t eq_refl).
      * rewrite (HG D). apply tsel_other; auto.
    + destruct ST as (n & m & s & t & -> & Q). exists (a ++ l), n, m, s, t, [], (outc (ts_res st)), (ts_rng st). rewrite <- E2. auto.
Qed.

(** * Sequential preparation of the inputs *)
Lemma reps_nil : reps [] [] 0 (fun _ => False) C1 (fun _ => C1).
Proof.
  constructor; try (intros; tauto). exists []. split; [constructor|]. split; [intros i []|]. split; [intros i (c & [] & _)|]. split; [tauto|].
  intros f g _. cbn. ring.
Qed.
Lemma reps_inputs inp : NoDup inp -> let N := fold_left tn_add_qubit inp (TN [] [] 0) in
  (forall t, In t (tn_ts N) -> In (t_node t) inp) /\ (forall n, In n inp -> vec_only N n) /\
  open1 N /\ reps (map tcore (tn_ts N)) (tn_dang N) (tn_next N) (fun n => In n inp) C1 (input_state inp (DState SPlus)).
Proof.
  induction inp as [|n inp IH] using rev_ind; intros ND N.
  - split; [intros t []|]. split; [intros t []|]. split; [intros t i []|]. eapply reps_ext; [| |apply reps_nil]; [intros; simpl; tauto|intros; reflexivity].
  - assert (DJ : ~ In n inp) by (apply NoDup_remove_2 in ND; rewrite app_nil_r in ND; auto). apply NoDup_remove_1 in ND. rewrite app_nil_r in ND. specialize (IH ND). unfold N. rewrite fold_left_app. cbn [fold_left]. cbv zeta in IH. destruct IH as (ON & OV & O & IH).
    set (N0 := fold_left tn_add_qubit inp (TN [] [] 0)) in *. unfold tn_add_qubit. cbn [tn_ts tn_dang tn_next]. split; [|split; [|split]].
    + intros t Ht. apply in_app_or in Ht. apply in_or_app. destruct Ht as [Ht|[<-|[]]]; [left; auto|right; left; auto].
    + intros x Hx. destruct (Nat.eq_dec x n) as [->|Nx].
      * exists (tn_next N0). cbn [tn_dang tn_ts]. rewrite dget_dset, Nat.eqb_refl. split; auto. split; [eexists; split; [apply in_or_app; right; left; reflexivity|auto]|].
        intros t Ht Et. apply in_app_or in Ht. destruct Ht as [Ht|[<-|[]]]; [|auto]. exfalso. apply DJ. rewrite <- Et. auto.
      * apply in_app_or in Hx. destruct Hx as [Hx|[->|[]]]; [|tauto]. destruct (OV x Hx) as (i & E & (t & T1 & T2 & T3) & A). exists i. cbn [tn_dang tn_ts]. rewrite dget_dset. destruct (Nat.eqb_spec n x); [congruence|]. split; auto. split; [exists t; split; [apply in_or_app; auto|auto]|].
        intros t' Ht' Et. apply in_app_or in Ht'. destruct Ht' as [Ht'|[<-|[]]]; [auto|cbn in Et; congruence].
    + intros t i Ht. cbn [tn_ts] in Ht. apply in_app_or in Ht. destruct Ht as [Ht|[<-|[]]]; [apply O; auto|]. intros _ [= <-] h. reflexivity.
    + rewrite map_app. cbn [map tcore t_inds t_data]. eapply reps_ext; [| |apply reps_prep; [exact IH|exact DJ]].
      * intros m. rewrite in_app_iff. simpl. intuition.
      * intros f. cbn [app_op input_state]. rewrite app_length. cbn [length]. rewrite repeat_app. cbn [repeat]. rewrite prod_amp_snoc by (rewrite repeat_length; auto). reflexivity.
Qed.

(** * Contraction with the output bits *)
Lemma ketv_get b x : vget (ketv b) x = if eqb x b then C1 else C0.
Proof.
  unfold ketv, planar_state. destruct b; cbn [b2R].
  - replace (1 * PI / 2)%R with (PI / 2)%R by field. rewrite cos_PI2, sin_PI2. destruct x; reflexivity.
  - replace (0 * PI / 2)%R with 0%R by field. rewrite cos_0, sin_0. destruct x; reflexivity.
Qed.
Fixpoint setl (J : list nat) (bs : list bool) (g : asg) : asg :=
  match J, bs with j :: J', b :: bs' => setl J' bs' (upd g j b) | _, _ => g end.
Lemma setl_other J : forall bs g i, ~ In i J -> setl J bs g i = g i.
Proof.
  induction J as [|j J IH]; intros [|b bs] g i H; cbn [setl]; auto. rewrite IH by (intros K; apply H; right; auto). apply upd_other. intros ->; apply H; left; auto.
Qed.
Lemma setl_nth J : NoDup J -> forall bs g k, (k < length J)%nat -> length bs = length J -> setl J bs g (nth k J 0%nat) = nth k bs false.
Proof.
  induction J as [|j J IH]; intros ND [|b bs] g k Hk HL; cbn in *; try lia. inversion ND; subst. destruct k as [|k].
  - rewrite setl_other by auto. apply upd_same.
  - apply IH; auto; lia.
Qed.
Definition kets (J : list nat) (bs : list bool) : list core := map (fun p => ([fst p], fun g : asg => vget (ketv (snd p)) (g (fst p)))) (combine J bs).
Lemma asum_kets J : forall bs I F g, length bs = length J -> NoDup (J ++ I) ->
  asum (J ++ I) (fun h => F h * cprod (kets J bs) h) g = asum I F (setl J bs g).
Proof.
  induction J as [|j J IH]; intros [|b bs] I F g HL ND; cbn in HL; try lia.
  - cbn [app setl]. apply asum_ext. intros f. unfold kets, cprod; cbn. ring.
  - cbn [app asum setl]. cbn [app] in ND. apply NoDup_cons_iff in ND. destruct ND as [Nj ND].
    assert (T : forall x, asum (J ++ I) (fun h => F h * cprod (kets (j :: J) (b :: bs)) h) (upd g j x) = asum I F (setl J bs (upd g j x)) * (if eqb x b then C1 else C0)).
    { intros x. rewrite (asum_ext _ _ (fun h => F h * cprod (kets J bs) h * vget (ketv b) (h j))) by (intros h; unfold kets, cprod; cbn [combine map fold_right fst snd]; ring).
      rewrite (asum_pull _ _ _ (if eqb x b then C1 else C0)) by (intros h Hh; rewrite Hh, upd_same by auto; apply ketv_get). rewrite IH by (auto; lia). reflexivity. }
    rewrite !T. destruct b; cbn [eqb]; ring.
Qed.
Definition ixs (dang : dict nat) (l : list nat) : list nat := map (fun n => match dget dang n with Some i => i | None => 0%nat end) l.
Lemma out_kets_ok N : forall outs bs, (forall n, In n outs -> exists i, dget (tn_dang N) n = Some i) -> length bs = length outs ->
  exists l, out_kets N outs bs = Ok l /\ map tcore l = kets (ixs (tn_dang N) outs) bs.
Proof.
  induction outs as [|n outs IH]; intros [|b bs] H HL; cbn in HL; try lia; [exists []; auto|].
  destruct (H n) as (i & E); [left; auto|]. destruct (IH bs) as (l & El & Ml); [intros; apply H; right; auto|lia|].
  cbn [out_kets]. rewrite E, El. cbn [rbind]. eexists. split; [reflexivity|]. cbn [map ixs]. rewrite Ml, E. reflexivity.
Qed.
Lemma contract_ok N lv k psi outs bs f : reps (map tcore (tn_ts N)) (tn_dang N) (tn_next N) lv k psi -> NoDup outs -> (forall n, lv n <-> In n outs) ->
  length bs = length outs -> (forall i, (i < length outs)%nat -> nth i bs false = f (nth i outs 0%nat)) ->
  exists l, out_kets N outs bs = Ok l /\ tcontract (tn_ts N ++ l) = k * psi f.
Proof.
  intros RP ND HL LB HF. destruct (out_kets_ok N outs bs) as (l & El & Ml); auto.
  { intros n Hn. destruct (rp_dang _ _ _ _ _ _ RP n) as (i & E & _); [apply HL; auto|eauto]. }
  exists l. split; auto. destruct RP as [A B C (I & NI & I1 & I2 & I3 & I4)].
  set (J := ixs (tn_dang N) outs) in *.
  assert (JN : forall i, (i < length outs)%nat -> dget (tn_dang N) (nth i outs 0%nat) = Some (nth i J 0%nat)).
  { intros i Hi. destruct (A (nth i outs 0%nat)) as (x & E & _); [apply HL, nth_In; auto|]. rewrite E. f_equal. unfold J, ixs.
    rewrite (nth_indep _ 0%nat (match dget (tn_dang N) 0%nat with Some i => i | None => 0%nat end)) by (rewrite map_length; auto).
    rewrite (map_nth (fun n => match dget (tn_dang N) n with Some i => i | None => 0%nat end)), E. auto. }
  assert (LJ : length J = length outs) by (unfold J, ixs; rewrite map_length; auto).
  assert (JI : forall i, In i J <-> exists n, lv n /\ dget (tn_dang N) n = Some i).
  { intros i. unfold J, ixs. rewrite in_map_iff. split.
    - intros (n & E & Hn). apply HL in Hn. destruct (A n Hn) as (x & E' & _). rewrite E' in E. exists n. subst; auto.
    - intros (n & Hn & E). exists n. rewrite E. split; auto. apply HL; auto. }
  assert (NJ : NoDup J).
  { unfold J, ixs. apply NoDup_map_in; auto. intros x y Hx Hy E. destruct (A x) as (i & Ei & _); [apply HL; auto|]. destruct (A y) as (j & Ej & _); [apply HL; auto|].
    rewrite Ei, Ej in E. subst. eapply B; eauto; apply HL; auto. }
  assert (NJI : NoDup (J ++ I)). { apply Layer.NoDup_app; auto. intros i Hi. apply JI in Hi. destruct Hi as (n & Hn & E). eapply I3; eauto. }
  assert (PM : Permutation (tinds (tn_ts N ++ l)) (J ++ I)).
  { apply NoDup_Permutation; auto; [apply NoDup_nodup|]. intros i. unfold tinds. rewrite nodup_In, flat_map_app, !in_app_iff.
    assert (X : In i (flat_map t_inds (tn_ts N)) <-> has_ind i (map tcore (tn_ts N))).
    { rewrite in_flat_map. split; [intros (t & Ht & Hi); exists (tcore t); split; auto; apply in_map; auto|]. intros (c & Hc & Hi). apply in_map_iff in Hc. destruct Hc as (t & <- & Ht). exists t; auto. }
    assert (Y : In i (flat_map t_inds l) -> In i J).
    { rewrite in_flat_map. intros (t & Ht & Hi). apply (in_map tcore) in Ht. rewrite Ml in Ht. unfold kets in Ht. apply in_map_iff in Ht. destruct Ht as ([j b] & E & Hp). apply in_combine_l in Hp.
      unfold tcore in E. injection E as E _. rewrite <- E in Hi. destruct Hi as [<-|[]]. auto. }
    rewrite X. split.
    - intros [H|H]; [|left; auto]. destruct (I2 i H) as [K|K]; [right; auto|left; apply JI; auto].
    - intros [H|H]; left; [|apply I1; auto]. apply JI in H. destruct H as (n & Hn & E). destruct (A n Hn) as (x & E' & H & _). rewrite E in E'. injection E' as <-. auto. }
  unfold tcontract. rewrite (asum_perm _ _ _ PM) by apply NoDup_nodup.
  rewrite (asum_ext _ _ (fun h => cprod (map tcore (tn_ts N)) h * cprod (kets J bs) h)) by (intros h; rewrite tprod_core, map_app, Ml, cprod_app; auto).
  rewrite asum_kets by (auto; lia). apply I4. intros n i Hn E. apply HL in Hn. apply (In_nth _ _ 0%nat) in Hn. destruct Hn as (q & Hq & <-).
  rewrite JN in E by auto. injection E as <-. rewrite setl_nth by (auto; lia). apply HF; auto.
Qed.
Lemma basis_bits_length n : forall b, length (basis_bits n b) = n.
Proof. induction n as [|n IH]; intros b; cbn [basis_bits length]; auto. Qed.
Lemma basis_bits_nth n : forall f i, (i < n)%nat -> nth i (basis_bits n (idx n f)) false = f i.
Proof.
  induction n as [|n IH]; intros f i Hi; [lia|]. cbn [basis_bits].
  assert (E : idx (S n) f = ((if f 0 then 2 ^ n else 0) + idx n (shiftn 1 f))%nat). { rewrite (idx_split (S n) 0) by lia. cbn [idx]. replace (S n - 0 - 1)%nat with n by lia. lia. }
  assert (L := idx_lt n (shiftn 1 f)).
  assert (Eb : (idx (S n) f / 2 ^ n =? 1)%nat = f 0%nat).
  { rewrite E. destruct (f 0%nat).
    - replace (2 ^ n + idx n (shiftn 1 f))%nat with (idx n (shiftn 1 f) + 1 * 2 ^ n)%nat by lia. rewrite Nat.div_add by lia. rewrite Nat.div_small by auto. reflexivity.
    - rewrite Nat.add_0_l, Nat.div_small by auto. reflexivity. }
  rewrite Eb. assert (Er : (if f 0%nat then idx (S n) f - 2 ^ n else idx (S n) f)%nat = idx n (shiftn 1 f)) by (rewrite E; destruct (f 0%nat); lia). rewrite Er.
  destruct i as [|i]; cbn [nth]; auto. rewrite IH by lia. reflexivity.
Qed.
