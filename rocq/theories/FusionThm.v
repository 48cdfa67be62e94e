(** Invariants of the decomposition of a graph into clusters. *)
From Coq Require Import ZArith Arith List Bool Lia Permutation.
From Verif Require Import NSet Pattern Standardize OpenGraph NodeIndex Fusion.
Import ListNotations.

(** [w] is a neighbor of [u] *)
Definition nb (a : adj) (u w : nat) : Prop := In w (nbl a u).
(** a networkx graph without self-loops *)
Record simple_adj (a : adj) : Prop := {
  sa_keys : NoDup (dkeys a);
  sa_nodup : forall v, NoDup (nbl a v);
  sa_loop : forall v, ~ nb a v v;
  sa_sym : forall u w, nb a u w -> nb a w u }.
Lemma nb_key a u w : nb a u w -> In u (dkeys a).
Proof. unfold nb, nbl. destruct (dget a u) eqn:E; [|intros []]. intros _. eapply dget_is_key; eauto. Qed.

(** * Lists *)
Lemma remove_In (x y : nat) l : In y (remove Nat.eq_dec x l) <-> In y l /\ y <> x.
Proof. split; [intros H; apply in_remove in H; auto|intros [A B]; apply in_in_remove; auto]. Qed.
Lemma remove_NoDup (x : nat) l : NoDup l -> NoDup (remove Nat.eq_dec x l).
Proof.
  induction l as [|y l IH]; intros H; cbn [remove]; auto. inversion H; subst. destruct (Nat.eq_dec x y); auto. constructor; auto. rewrite remove_In. tauto.
Qed.
Lemma remove_notin (x : nat) l : ~ In x l -> remove Nat.eq_dec x l = l.
Proof. intros H. apply notin_remove; auto. Qed.
Lemma remove_length (x : nat) l : NoDup l -> In x l -> S (length (remove Nat.eq_dec x l)) = length l.
Proof.
  induction l as [|y l IH]; intros H K; [destruct K|]. inversion H; subst. cbn [remove]. destruct (Nat.eq_dec x y) as [->|N].
  - rewrite remove_notin by auto. reflexivity.
  - destruct K as [->|K]; [congruence|]. cbn [length]. rewrite IH; auto.
Qed.
Lemma remove_last (x : nat) l : NoDup (l ++ [x]) -> remove Nat.eq_dec x (l ++ [x]) = l.
Proof.
  intros H. rewrite remove_app. cbn. destruct (Nat.eq_dec x x); [|congruence]. rewrite app_nil_r. apply remove_notin. apply NoDup_remove_2 in H. rewrite app_nil_r in H. auto.
Qed.
Lemma popitem_spec l : l <> [] -> exists l' x, l = l' ++ [x] /\ popitem l = Some (x, l').
Proof. destruct l as [|y l] using rev_ind; [congruence|]. intros _. exists l, y. split; auto. unfold popitem. rewrite rev_app_distr. cbn. rewrite rev_involutive. auto. Qed.
Lemma sum_upd (f f' : nat -> nat) ks v : NoDup ks -> In v ks -> (forall k, k <> v -> f' k = f k) ->
  list_sum (map f' ks) + f v = list_sum (map f ks) + f' v.
Proof.
  induction ks as [|k ks IH]; intros ND H HF; [destruct H|]. inversion ND; subst. cbn [map list_sum fold_right].
  fold (list_sum (map f' ks)). fold (list_sum (map f ks)). destruct H as [->|H].
  - assert (E : map f' ks = map f ks) by (apply map_ext_in; intros x Hx; apply HF; intros ->; auto). rewrite E. lia.
  - rewrite (HF k) by (intros ->; auto). specialize (IH H3 H HF). lia.
Qed.
Lemma sum_0 (f : nat -> nat) ks : list_sum (map f ks) = 0 <-> forall k, In k ks -> f k = 0.
Proof.
  induction ks as [|k ks IH]; cbn [map list_sum fold_right In]; [split; [intros _ k []|auto]|]. fold (list_sum (map f ks)). split.
  - intros H x [<-|Hx]; [lia|]. apply IH; auto; lia.
  - intros H. rewrite (proj2 IH); [rewrite H; auto|auto].
Qed.
Lemma edge_norm_eq u w x y : edge_norm (u, w) = edge_norm (x, y) <-> (u = x /\ w = y) \/ (u = y /\ w = x).
Proof. unfold edge_norm; cbn [fst snd]. split; [intros [= A B]; lia|]. intros [[-> ->]|[-> ->]]; f_equal; lia. Qed.
Lemma nbl_dset a v l k : nbl (dset a v l) k = if (v =? k)%nat then l else nbl a k.
Proof. unfold nbl. rewrite dget_dset. destruct (v =? k)%nat; auto. Qed.
Lemma dkeys_dset_in (a : adj) v l : In v (dkeys a) -> dkeys (dset a v l) = dkeys a.
Proof.
  unfold dkeys. induction a as [|[k x] a IH]; intros H; [destruct H|]. cbn [dset map fst]. destruct (Nat.eqb_spec k v) as [->|N]; auto. cbn [map fst]. f_equal. apply IH. simpl in H. destruct H; [congruence|auto].
Qed.

(** * The invariant: edges left in the graph and edges already in clusters *)
Section Inv.
Variable a0 : adj.
Record Inv (a : adj) (E : list (nat * nat)) (ne : Z) : Prop := {
  iv_s : simple_adj a;
  iv_keys : dkeys a = dkeys a0;
  iv_nd : NoDup (map edge_norm E);
  iv_all : forall u w, nb a0 u w <-> nb a u w \/ In (edge_norm (u, w)) (map edge_norm E);
  iv_dis : forall u w, nb a u w -> ~ In (edge_norm (u, w)) (map edge_norm E);
  iv_ne : Z.of_nat (total a) = (2 * ne)%Z }.
Lemma inv_perm a E E' ne : Permutation (map edge_norm E) (map edge_norm E') -> Inv a E ne -> Inv a E' ne.
Proof.
  intros P [A B C D F G]. constructor; auto.
  - eapply Permutation_NoDup; eauto.
  - intros u w. rewrite D. split; (intros [H|H]; auto; right); [eapply Permutation_in; eauto|eapply Permutation_in; [apply Permutation_sym|]; eauto].
  - intros u w H K. apply (F u w H). eapply Permutation_in; [apply Permutation_sym|]; eauto.
Qed.
(** an edge leaves the graph *)
Lemma inv_drop a E ne v n a' : Inv a E ne -> nb a v n -> dkeys a' = dkeys a ->
  (forall k, nbl a' k = if (k =? v)%nat then remove Nat.eq_dec n (nbl a v) else if (k =? n)%nat then remove Nat.eq_dec v (nbl a n) else nbl a k) ->
  Inv a' ((v, n) :: E) (ne - 1).
Proof.
  intros [SA K ND AL DI NE] HN KE HK. pose proof SA as [S1 S2 S3 S4]. assert (Nvn : v <> n) by (intros ->; exact (S3 n HN)).
  assert (HN' : nb a n v) by auto.
  assert (NB : forall u w, nb a' u w <-> nb a u w /\ edge_norm (u, w) <> edge_norm (v, n)).
  { intros u w. unfold nb at 1. rewrite HK, edge_norm_eq. destruct (Nat.eqb_spec u v) as [->|Nu]; [|destruct (Nat.eqb_spec u n) as [->|Nu']].
    - rewrite remove_In. unfold nb. split; [intros [A B]; split; auto; intros [[_ C]|[C _]]; auto|]. intros [A B]. split; auto.
    - rewrite remove_In. unfold nb. split; [intros [A B]; split; auto; intros [[C _]|[_ C]]; auto|]. intros [A B]. split; auto.
    - unfold nb. split; [intros A; split; auto; intros [[C _]|[C _]]; auto|tauto]. }
  constructor.
  - constructor.
    + rewrite KE; auto.
    + intros k. rewrite HK. destruct (k =? v)%nat; [apply remove_NoDup; auto|]. destruct (k =? n)%nat; [apply remove_NoDup; auto|auto].
    + intros k H. apply NB in H. destruct H as [H _]. exact (S3 k H).
    + intros u w H. apply NB in H. apply NB. destruct H as [H1 H2]. split; auto. rewrite edge_norm_swap. auto.
  - congruence.
  - cbn [map]. constructor; auto. 
  - intros u w. rewrite AL, NB. cbn [map In]. destruct (edge_eqb (edge_norm (u, w)) (edge_norm (v, n))) eqn:Q.
    + apply edge_eqb_eq in Q. rewrite Q. split; auto. intros _. left. apply edge_norm_eq in Q. destruct Q as [[-> ->]|[-> ->]]; auto.
    + assert (Q' : edge_norm (u, w) <> edge_norm (v, n)) by (intros X; apply edge_eqb_eq in X; congruence). split; [tauto|]. intros [H|[H|H]]; try tauto. symmetry in H. tauto.
  - intros u w H. apply NB in H. destruct H as [H1 H2]. cbn [map In]. intros [H|H]; [auto|]. exact (DI u w H1 H).
  - unfold total in *. rewrite KE.
    set (f := fun k => length (nbl a k)) in *. set (f1 := fun k => if (k =? v)%nat then length (remove Nat.eq_dec n (nbl a v)) else f k).
    assert (E1 := sum_upd f f1 (dkeys a) v S1 (nb_key _ _ _ HN)). assert (E2 := sum_upd f1 (fun k => length (nbl a' k)) (dkeys a) n S1 (nb_key _ _ _ HN')).
    assert (X1 : forall k, k <> v -> f1 k = f k) by (intros k Hk; unfold f1; destruct (Nat.eqb_spec k v); congruence).
    assert (X2 : forall k, k <> n -> length (nbl a' k) = f1 k).
    { intros k Hk. rewrite HK. unfold f1. destruct (k =? v)%nat; auto. destruct (Nat.eqb_spec k n); [congruence|auto]. }
    specialize (E1 X1). specialize (E2 X2). cbv beta in E2.
    assert (Y1 : S (f1 v) = f v) by (unfold f1, f; rewrite Nat.eqb_refl; apply remove_length; auto).
    assert (Y2 : f1 n = f n) by (apply X1; auto).
    assert (Y3 : S (length (nbl a' n)) = f n). { rewrite HK, Nat.eqb_refl. destruct (Nat.eqb_spec n v); [congruence|]. apply remove_length; auto. }
    lia.
Qed.

Lemma del_nb_spec (a : adj) u w : nb a u w -> exists a', del_nb a u w = Ok a' /\ dkeys a' = dkeys a /\ forall k, nbl a' k = if (k =? u)%nat then remove Nat.eq_dec w (nbl a u) else nbl a k.
Proof.
  intros H. pose proof (nb_key _ _ _ H) as HU. unfold nb, nbl in H. unfold del_nb. destruct (dget a u) as [l|] eqn:E; [|destruct H].
  assert (lmem w l = true) as -> by (apply lmem_In; auto). eexists. split; [reflexivity|]. split; [apply dkeys_dset_in; auto|].
  intros k. rewrite nbl_dset, (Nat.eqb_sym u k). unfold nbl at 2. rewrite E. auto.
Qed.
Lemma inv_pop a E ne v : Inv a E ne -> nbl a v <> [] -> exists n a', pop_edge a v = Ok (n, a') /\ nb a v n /\ Inv a' ((v, n) :: E) (ne - 1) /\ dkeys a' = dkeys a
  /\ forall k, nbl a' k = if (k =? v)%nat then remove Nat.eq_dec n (nbl a v) else if (k =? n)%nat then remove Nat.eq_dec v (nbl a n) else nbl a k.
Proof.
  intros HI H. destruct (popitem_spec _ H) as (l & n & El & Ep). pose proof (iv_s _ _ _ HI) as [S1 S2 S3 S4].
  assert (HN : nb a v n) by (unfold nb; rewrite El; apply in_or_app; right; left; auto). assert (Nvn : v <> n) by (intros ->; exact (S3 n HN)).
  assert (HV := nb_key _ _ _ HN). unfold pop_edge. rewrite Ep.
  destruct (del_nb_spec (dset a v l) n v) as (a' & E1 & E2 & E3).
  { unfold nb. rewrite nbl_dset. destruct (Nat.eqb_spec v n); [congruence|]. apply S4; auto. }
  rewrite E1. cbn [rbind]. exists n, a'. split; auto. split; auto. rewrite dkeys_dset_in in E2 by auto.
  assert (HK : forall k, nbl a' k = if (k =? v)%nat then remove Nat.eq_dec n (nbl a v) else if (k =? n)%nat then remove Nat.eq_dec v (nbl a n) else nbl a k).
  { intros k. rewrite E3, !nbl_dset. rewrite (Nat.eqb_sym v n), (Nat.eqb_sym v k). destruct (Nat.eqb_spec n v) as [X|_]; [congruence|]. destruct (Nat.eqb_spec k v) as [->|Nk].
    - destruct (Nat.eqb_spec v n); [congruence|]. rewrite El. symmetry. apply remove_last. rewrite <- El. auto.
    - destruct (k =? n)%nat; auto. }
  split; [|split; auto]. eapply inv_drop; eauto.
Qed.
Lemma pop_len a a' v n k : (forall k, nbl a' k = if (k =? v)%nat then remove Nat.eq_dec n (nbl a v) else if (k =? n)%nat then remove Nat.eq_dec v (nbl a n) else nbl a k) ->
  (length (nbl a' k) <= length (nbl a k))%nat.
Proof. intros H. rewrite H. destruct (Nat.eqb_spec k v) as [->|_]; [apply remove_length_le|]. destruct (Nat.eqb_spec k n) as [->|_]; [apply remove_length_le|auto]. Qed.

(** * Stars *)
Lemma star_spec mx v : forall fuel nodes a E ne, Inv a E ne -> (length (nbl a v) <= fuel)%nat ->
  exists lv a' ne', star_loop fuel mx v nodes a ne = Ok (nodes ++ lv, a', ne') /\ Inv a' (map (fun i => (v, i)) lv ++ E) ne'
    /\ (nbl a' v = [] \/ below (length (nodes ++ lv)) mx = false) /\ (forall k, (length (nbl a' k) <= length (nbl a k))%nat)
    /\ (mx = None \/ forall m, mx = Some m -> (length nodes <= m)%nat -> (length (nodes ++ lv) <= m)%nat)
    /\ (length (nbl a v) = length lv + length (nbl a' v))%nat.
Proof.
  induction fuel as [|fuel IH]; intros nodes a E ne HI HF; cbn [star_loop].
  - exists [], a, ne. rewrite app_nil_r. split; auto. split; auto. split; [left; destruct (nbl a v); auto; cbn in HF; lia|]. split; auto.
  - destruct (Nat.ltb_spec 0 (length (nbl a v))) as [L|L]; cbn [andb].
    + destruct (below (length nodes) mx) eqn:B.
      * destruct (inv_pop a E ne v HI) as (n & a' & E1 & HN & HI' & KE & HK); [destruct (nbl a v); [cbn in L; lia|discriminate]|]. rewrite E1. cbn [rbind].
        pose proof (iv_s _ _ _ HI) as [S1 S2 S3 S4]. assert (LV : S (length (nbl a' v)) = length (nbl a v)) by (rewrite HK, Nat.eqb_refl; apply remove_length; auto).
        destruct (IH (nodes ++ [n]) a' _ _ HI') as (lv & a2 & ne2 & F1 & F2 & F3 & F4 & F5 & F6); [lia|]. exists (n :: lv), a2, ne2. rewrite <- app_assoc in F1, F3, F5. cbn [app] in F1, F3, F5.
        split; auto. split; [|split; auto; split; [|split]].
        -- cbn [map app]. eapply inv_perm; [|exact F2]. rewrite !map_app. cbn [map]. rewrite map_app. apply Permutation_sym, Permutation_middle.
        -- intros k. pose proof (pop_len a a' v n k HK). specialize (F4 k). lia.
        -- destruct F5 as [F5|F5]; auto. right. intros m Em Hm. apply (F5 m Em). unfold below in B. rewrite Em in B. apply Nat.ltb_lt in B. rewrite app_length; cbn; lia.
        -- cbn [length]. lia.
      * exists [], a, ne. rewrite app_nil_r. split; auto. split; auto.
    + exists [], a, ne. rewrite app_nil_r. split; auto. split; auto. split; [left; destruct (nbl a v); auto; cbn in L; lia|]. split; auto.
Qed.

(** * Walks *)
Lemma chain_snoc l x y : chain ((l ++ [x]) ++ [y]) = chain (l ++ [x]) ++ [(x, y)].
Proof.
  induction l as [|a l IH]; [reflexivity|]. destruct l as [|b l]; [reflexivity|]. cbn [app chain] in *. rewrite IH. reflexivity.
Qed.
Definition degs2 (a : adj) : Prop := forall k, (length (nbl a k) <= 2)%nat.
(** all nodes of the walk but the last one have lost their edges *)
Definition walked (nodes : list nat) (n : nat) (a : adj) : Prop :=
  degs2 a /\ NoDup nodes /\ (forall k, In k nodes -> k <> n -> nbl a k = []) /\ (length (nbl a n) <= 1)%nat.
Lemma walk_spec mx : forall fuel l n a E ne, Inv a (chain (l ++ [n]) ++ E) ne -> (total a <= fuel)%nat ->
  exists l' n' a' ne', walk_loop fuel mx n (l ++ [n]) a ne = Ok (l' ++ [n'], a', ne') /\ Inv a' (chain (l' ++ [n']) ++ E) ne'
    /\ (nbl a' n' = [] \/ below (length (l' ++ [n'])) mx = false) /\ (forall k, (length (nbl a' k) <= length (nbl a k))%nat)
    /\ (exists r, l' ++ [n'] = (l ++ [n]) ++ r /\ (ne' = ne - Z.of_nat (length r))%Z)
    /\ (nbl a n <> [] -> below (length (l ++ [n])) mx = true -> (ne' < ne)%Z)
    /\ (forall m, mx = Some m -> (length (l ++ [n]) <= m)%nat -> (length (l' ++ [n']) <= m)%nat)
    /\ (walked (l ++ [n]) n a -> walked (l' ++ [n']) n' a').
Proof.
  induction fuel as [|fuel IH]; intros l n a E ne HI HF; cbn [walk_loop].
  - assert (Z0 : nbl a n = []). { destruct (nbl a n) as [|x r] eqn:Q; auto. exfalso. assert (H : nb a n x) by (unfold nb; rewrite Q; left; auto). assert (T : total a = 0) by lia. unfold total in T. rewrite sum_0 in T. specialize (T n (nb_key _ _ _ H)). rewrite Q in T. discriminate. }
    exists l, n, a, ne. split; auto. split; auto. split; auto. split; auto. split; [exists []; rewrite app_nil_r; cbn; split; auto; lia|]. split; auto. congruence.
  - destruct (Nat.ltb_spec 0 (length (nbl a n))) as [L|L]; cbn [andb].
    + destruct (below (length (l ++ [n])) mx) eqn:B.
      * assert (NE : nbl a n <> []) by (destruct (nbl a n); [cbn in L; lia|discriminate]).
        destruct (inv_pop a _ ne n HI NE) as (n2 & a' & E1 & HN & HI' & KE & HK). rewrite E1. cbn [rbind].
        pose proof (iv_s _ _ _ HI) as [S1 S2 S3 S4]. assert (Nn : n <> n2) by (intros X; apply (S3 n); rewrite X at 2; auto).
        assert (HI2 : Inv a' (chain ((l ++ [n]) ++ [n2]) ++ E) (ne - 1)). { eapply inv_perm; [|exact HI']. rewrite chain_snoc, <- app_assoc. cbn [map]. rewrite !map_app. cbn [map]. apply Permutation_middle. }
        assert (TT : (total a' <= fuel)%nat). { pose proof (iv_ne _ _ _ HI). pose proof (iv_ne _ _ _ HI2). lia. }
        destruct (IH (l ++ [n]) n2 a' _ _ HI2 TT) as (l' & n' & a2 & ne2 & F1 & F2 & F3 & F4 & (r & F5 & F5') & F6 & F7 & F8).
        exists l', n', a2, ne2. split; auto. split; auto. split; auto. split; [intros k; pose proof (pop_len a a' n n2 k HK); specialize (F4 k); lia|].
        split; [exists (n2 :: r); split; [rewrite F5, <- app_assoc; reflexivity|cbn [length]; lia]|]. split; [intros _ _; lia|]. split.
        -- intros m Em Hm. apply (F7 m Em). unfold below in B. rewrite Em in B. apply Nat.ltb_lt in B. rewrite app_length; cbn [length]; lia.
        -- intros (W1 & W2 & W3 & W4). apply F8. assert (N2 : ~ In n2 (l ++ [n])). { intros H. assert (Q : nbl a n2 = []) by (apply W3; auto). apply S4 in HN. unfold nb in HN. rewrite Q in HN. destruct HN. }
           assert (Zn : nbl a' n = []). { rewrite HK, Nat.eqb_refl. assert (X := remove_length n2 (nbl a n) (S2 n) HN). destruct (remove Nat.eq_dec n2 (nbl a n)); auto. cbn in X. lia. }
           split; [|split; [|split]].
           ++ intros k. pose proof (pop_len a a' n n2 k HK). specialize (W1 k). lia.
           ++ apply (Permutation_NoDup (l := n2 :: l ++ [n])); [apply Permutation_cons_append|constructor; auto].
           ++ intros k Hk Nk. apply in_app_or in Hk. destruct Hk as [Hk|[<-|[]]]; [|congruence]. destruct (Nat.eq_dec k n) as [->|Nkn]; auto. rewrite HK. destruct (Nat.eqb_spec k n); [congruence|]. destruct (Nat.eqb_spec k n2); [congruence|]. apply W3; auto.
           ++ rewrite HK. destruct (Nat.eqb_spec n2 n); [congruence|]. rewrite Nat.eqb_refl. assert (X := remove_length n (nbl a n2) (S2 n2) (S4 _ _ HN)). specialize (W1 n2). lia.
      * exists l, n, a, ne. split; auto. split; auto. split; auto. split; auto. split; [exists []; rewrite app_nil_r; cbn; split; auto; lia|]. split; [congruence|]. split; auto.
    + assert (Z0 : nbl a n = []) by (destruct (nbl a n); auto; cbn in L; lia).
      exists l, n, a, ne. split; auto. split; auto. split; auto. split; auto. split; [exists []; rewrite app_nil_r; cbn; split; auto; lia|]. split; [congruence|]. split; auto.
Qed.
End Inv.

(** * Clusters *)
(** a star: a root linked to distinct leaves *)
Definition is_star (c : cluster) : Prop :=
  cl_type c = GHZ /\ exists root leaves, cl_nodes c = root :: leaves /\ NoDup (root :: leaves) /\ cl_edges c = map (fun i => (root, i)) leaves.
(** the nodes in a row, each linked to the next *)
Definition is_chain (c : cluster) : Prop := cl_type c = LINEAR /\ cl_edges c = chain (cl_nodes c).
Definition at_most (k : nat) (mx : option nat) : Prop := match mx with None => True | Some m => (k <= m)%nat end.
Lemma filter_id {A} (f : A -> bool) l : (forall x, In x l -> f x = true) -> filter f l = l.
Proof. induction l as [|x l IH]; intros H; cbn [filter]; auto. rewrite (H x) by (left; auto). f_equal. apply IH. intros; apply H; right; auto. Qed.
Lemma ghz_star v lv : NoDup (v :: lv) -> is_star (ghz (v :: lv) v) /\ cl_edges (ghz (v :: lv) v) = map (fun i => (v, i)) lv.
Proof.
  intros H. inversion H; subst. assert (E : filter (fun i => negb (i =? v)%nat) (v :: lv) = lv).
  { cbn [filter]. rewrite Nat.eqb_refl. cbn [negb]. apply filter_id. intros x Hx. destruct (Nat.eqb_spec x v); subst; auto. }
  unfold ghz. rewrite E. split; [|reflexivity]. split; [reflexivity|]. exists v, lv. auto.
Qed.
Lemma nodup_l {A} (l1 l2 : list A) : NoDup (l1 ++ l2) -> NoDup l1.
Proof. induction l1 as [|x l1 IH]; intros H; [constructor|]. cbn [app] in H. inversion H; subst. constructor; auto. intros K. apply H2. apply in_or_app; auto. Qed.
Section Steps.
Variables (a0 : adj) (mg ml : option nat) (strict : Prop).
Hypothesis S0 : simple_adj a0.
Definition keysok (c : cluster) : Prop := forall x, In x (cl_nodes c) -> In x (dkeys a0).
Definition okc (c : cluster) : Prop :=
  keysok c /\ ((is_star c /\ (at_most (length (cl_nodes c)) mg \/ (length (cl_nodes c) <= 3)%nat))
  \/ (is_chain c /\ (strict -> NoDup (cl_nodes c)) /\ (at_most (length (cl_nodes c)) ml \/ length (cl_nodes c) = 1) /\ (length (cl_nodes c) = 1 -> below 1 ml = false) /\ length (cl_nodes c) <> 2 /\ length (cl_nodes c) <> 3 /\ cl_nodes c <> [])).
Record FInv (s : fstate) : Prop := {
  fi_inv : Inv a0 (fs_a s) (flat_map cl_edges (fs_r s)) (fs_ne s);
  fi_ok : Forall okc (fs_r s);
  fi_strict : strict -> degs2 (fs_a s) }.
Lemma inv_len a E ne k : Inv a0 a E ne -> (length (nbl a k) <= length (nbl a0 k))%nat.
Proof. intros HI. apply NoDup_incl_length; [apply HI|]. intros x Hx. apply (iv_all _ _ _ _ HI k x). left; auto. Qed.
Lemma add_cluster a r ne c E : Inv a0 a (E ++ flat_map cl_edges r) ne -> Permutation (map edge_norm (cl_edges c)) (map edge_norm E) -> Forall okc r -> okc c -> (strict -> degs2 a) -> FInv (FS a ne (r ++ [c])).
Proof.
  intros HI P H1 H2 H3. constructor; cbn [fs_a fs_r fs_ne]; auto.
  - eapply inv_perm; [|exact HI]. rewrite flat_map_app. cbn [flat_map]. rewrite app_nil_r, !map_app. rewrite P. apply Permutation_app_comm.
  - apply Forall_app. split; auto.
Qed.
(** edges of the invariant are edges of the graph *)
Lemma inv_edge a E ne u w : Inv a0 a E ne -> In (u, w) E -> u <> w.
Proof.
  intros HI H ->. apply (sa_loop _ S0 w). apply (iv_all _ _ _ _ HI w w). right. apply in_map; auto.
Qed.
Lemma stars_nodup v lv : forall E a ne, Inv a0 a (map (fun i => (v, i)) lv ++ E) ne -> NoDup (v :: lv).
Proof.
  intros E a ne HI. constructor.
  - intros H. apply (inv_edge _ _ _ v v HI); auto. apply in_or_app. left. apply in_map_iff. exists v. auto.
  - pose proof (iv_nd _ _ _ _ HI) as ND. rewrite map_app, map_map in ND. apply nodup_l in ND. revert ND. clear. induction lv as [|x lv IH]; intros ND; [constructor|]. cbn [map] in ND. inversion ND; subst. constructor; auto. intros H. apply H1. apply in_map_iff. exists x. auto.
Qed.
Definition starok (c : cluster) : Prop := keysok c /\ is_star c /\ (at_most (length (cl_nodes c)) mg \/ (length (cl_nodes c) <= 3)%nat).
Definition SInv (s : fstate) : Prop := Inv a0 (fs_a s) (flat_map cl_edges (fs_r s)) (fs_ne s) /\ Forall starok (fs_r s).
Lemma inv_key a E ne u w : Inv a0 a E ne -> In (u, w) E -> In u (dkeys a0) /\ In w (dkeys a0).
Proof. intros HI H. assert (N : nb a0 u w) by (apply (iv_all _ _ _ _ HI); right; apply in_map; auto). split; [eapply nb_key; eauto|]. apply (sa_sym _ S0) in N. eapply nb_key; eauto. Qed.
Lemma star_keys v lv E a ne : Inv a0 a (map (fun i => (v, i)) lv ++ E) ne -> In v (dkeys a0) -> forall x, In x (v :: lv) -> In x (dkeys a0).
Proof. intros HI Hv x [<-|Hx]; auto. eapply inv_key; [exact HI|]. apply in_or_app. left. apply in_map_iff. exists x. auto. Qed.
Lemma chain_in r : forall h x, In x (h :: r) -> x = h \/ exists y, In (y, x) (chain (h :: r)).
Proof.
  induction r as [|z r IH]; intros h x; [intros [<-|[]]; auto|]. intros [<-|H]; auto. right. change (chain (h :: z :: r)) with ((h, z) :: chain (z :: r)). destruct (IH z x H) as [->|[y Hy]]; [exists h; left; auto|exists y; right; auto].
Qed.
Lemma star_step_ok s v : SInv s -> exists s', star_step mg s v = Ok s' /\ SInv s' /\ (forall k, (length (nbl (fs_a s') k) <= length (nbl (fs_a s) k))%nat)
  /\ (at_most (S (length (nbl a0 v))) mg -> (length (nbl (fs_a s') v) <= 2)%nat).
Proof.
  intros HF. unfold star_step. destruct (Nat.ltb_spec 2 (length (nbl (fs_a s) v))) as [L|L]; [|exists s; auto].
  destruct HF as [HI HO]. destruct (star_spec a0 mg v (length (nbl (fs_a s) v)) [v] (fs_a s) _ _ HI (le_n _)) as (lv & a' & ne' & E1 & HI' & X1 & X2 & X3 & X4). rewrite E1. cbn [rbind app].
  pose proof (stars_nodup v lv _ _ _ HI') as ND. destruct (ghz_star v lv ND) as [G1 G2]. eexists. split; [reflexivity|]. split; [|split].
  - split; cbn [fs_a fs_r fs_ne].
    + eapply inv_perm; [|exact HI']. rewrite flat_map_app. cbn [flat_map]. rewrite app_nil_r, !map_app. rewrite G2. apply Permutation_app_comm.
    + apply Forall_app. split; auto. constructor; [|constructor]. split; [intros x; cbn [ghz cl_nodes]; eapply star_keys; [exact HI'|]; destruct (nbl (fs_a s) v) as [|z zs] eqn:EZ; [cbn in L; lia|]; apply (nb_key a0 v z), (iv_all _ _ _ _ HI); left; unfold nb; rewrite EZ; left; auto|]. split; [exact G1|]. cbn [ghz cl_nodes]. unfold at_most. destruct mg as [[|m]|]; auto.
      * right. assert (E0 : lv = []). { destruct (length (nbl (fs_a s) v)) as [|t]; cbn [star_loop] in E1; [|cbn [below] in E1; replace (_ <? 0)%nat with false in E1 by reflexivity; rewrite andb_false_r in E1]; injection E1 as E1 _ _; auto. } rewrite E0. cbn. lia.
      * left. destruct X3 as [X3|X3]; [discriminate|]. apply (X3 (S m) eq_refl). cbn. lia.
  - exact X2.
  - cbn [fs_a]. intros HM. destruct X1 as [->|X1]; [cbn; lia|]. unfold below in X1. destruct mg as [m|]; [|discriminate]. apply Nat.ltb_ge in X1. cbn [app length] in X1. cbn [at_most] in HM. pose proof (inv_len _ _ _ v HI). lia.
Qed.
Lemma star_fold vs : forall s, SInv s -> exists s', rfold (star_step mg) vs s = Ok s' /\ SInv s' /\ (forall k, (length (nbl (fs_a s') k) <= length (nbl (fs_a s) k))%nat)
  /\ ((forall v, at_most (S (length (nbl a0 v))) mg) -> forall v, In v vs -> (length (nbl (fs_a s') v) <= 2)%nat).
Proof.
  induction vs as [|v vs IH]; intros s HF; cbn [rfold].
  - exists s. split; [auto|]. split; [auto|]. split; [auto|]. intros _ v [].
  - destruct (star_step_ok s v HF) as (s1 & E1 & F1 & L1 & Q1). rewrite E1. destruct (IH s1 F1) as (s2 & E2 & F2 & L2 & Q2). exists s2. split; [auto|]. split; [auto|]. split.
    + intros k. specialize (L1 k). specialize (L2 k). lia.
    + intros HM x [<-|Hx]; auto. specialize (L2 v). specialize (Q1 (HM v)). lia.
Qed.
Lemma chain3 x y z a E ne : Inv a0 a ((x, y) :: (y, z) :: E) ne -> x <> z.
Proof. intros HI ->. pose proof (iv_nd _ _ _ _ HI) as ND. cbn [chain app map] in ND. inversion ND as [|? ? N1 N2]; subst. apply N1. left. apply edge_norm_swap. Qed.
Lemma lin_perm l a E ne : Inv a0 a (chain l ++ E) ne -> Permutation (map edge_norm (cl_edges (lin_cluster l))) (map edge_norm (chain l)).
Proof.
  intros HI. destruct l as [|x [|y [|z [|w l]]]]; try apply Permutation_refl.
  - assert (x <> y) by (apply (inv_edge _ _ _ x y HI); left; auto). cbn [lin_cluster]. rewrite (proj2 (ghz_star x [y] ltac:(repeat constructor; cbn; intuition))). apply Permutation_refl.
  - assert (x <> y) by (apply (inv_edge _ _ _ x y HI); left; auto). assert (y <> z) by (apply (inv_edge _ _ _ y z HI); right; left; auto).
    assert (N : x <> z) by (apply (chain3 _ _ _ _ _ _ HI)).
    cbn [lin_cluster]. rewrite (proj2 (ghz_star y [x; z] ltac:(repeat constructor; cbn; intuition))). cbn [map chain]. rewrite (edge_norm_swap y x). apply Permutation_refl.
Qed.
Lemma lin_keys l a E ne : (forall h r, l = h :: r -> In h (dkeys a0)) -> Inv a0 a (chain l ++ E) ne -> keysok (lin_cluster l).
Proof.
  intros HH HI. assert (G : forall x, In x l -> In x (dkeys a0)).
  { intros x Hx. destruct l as [|h r]; [destruct Hx|]. destruct (chain_in r h x Hx) as [->|[y Hy]]; [eapply HH; eauto|]. eapply inv_key; [exact HI|]. apply in_or_app. left. exact Hy. }
  intros x Hx. apply G. destruct l as [|x1 [|x2 [|x3 [|x4 l]]]]; cbn [lin_cluster ghz linear cl_nodes] in Hx; auto. cbn [In] in *. tauto.
Qed.
Lemma lin_ok l a E ne : (forall h r, l = h :: r -> In h (dkeys a0)) -> l <> [] -> Inv a0 a (chain l ++ E) ne -> (strict -> NoDup l) -> (at_most (length l) ml \/ length l = 1) -> (length l = 1 -> below 1 ml = false) -> okc (lin_cluster l).
Proof.
  intros HH NE HI HN HM H1. split; [eapply lin_keys; eauto|]. destruct l as [|x [|y [|z [|w l]]]].
  - congruence.
  - right. cbn [lin_cluster linear cl_nodes length] in *. split; [split; reflexivity|]. split; [auto|]. split; [auto|]. split; [auto|]. split; [lia|split; [lia|discriminate]].
  - assert (x <> y) by (apply (inv_edge _ _ _ x y HI); left; auto). left. cbn [lin_cluster]. split; [apply (ghz_star x [y]); repeat constructor; cbn; intuition|]. right. cbn. lia.
  - assert (x <> y) by (apply (inv_edge _ _ _ x y HI); left; auto). assert (y <> z) by (apply (inv_edge _ _ _ y z HI); right; left; auto).
    assert (N : x <> z) by (apply (chain3 _ _ _ _ _ _ HI)).
    left. cbn [lin_cluster]. split; [apply (ghz_star y [x; z]); repeat constructor; cbn; intuition|]. right. cbn. lia.
  - right. cbn [lin_cluster linear cl_nodes] in *. split; [split; reflexivity|]. split; [auto|]. split; [auto|]. split; [auto|]. cbn. split; [lia|split; [lia|discriminate]].
Qed.
Lemma lin_step_ok s v : FInv s -> exists s', lin_step ml s v = Ok s' /\ FInv s' /\ (fs_ne s' <= fs_ne s)%Z
  /\ (length (nbl (fs_a s) v) <> 1 -> s' = s) /\ (length (nbl (fs_a s) v) = 1 -> below 1 ml = true -> (fs_ne s' < fs_ne s)%Z).
Proof.
  intros [HI HO HD]. unfold lin_step. destruct (Nat.eqb_spec (length (nbl (fs_a s) v)) 1) as [L|L].
  2:{ exists s. split; auto. split; [constructor; auto|]. split; [lia|]. split; [auto|congruence]. }
  destruct (walk_spec a0 ml (total (fs_a s)) [] v (fs_a s) (flat_map cl_edges (fs_r s)) (fs_ne s) HI (le_n _)) as (l' & n' & a' & ne' & E1 & HI' & X1 & X2 & (r & X3 & X3') & X4 & X5 & X6).
  cbn [app] in E1. rewrite E1. cbn [rbind]. eexists. split; [reflexivity|]. cbn [fs_ne fs_a]. split; [|split; [lia|split; [congruence|]]].
  - eapply add_cluster; [exact HI'|eapply lin_perm; exact HI'|auto| |].
    + eapply lin_ok; [| |exact HI'| | |].
      * intros h r' EH. rewrite X3 in EH. cbn [app] in EH. injection EH as <- _. apply (nb_key a0 v (hd 0 (nbl (fs_a s) v))), (iv_all _ _ _ _ HI). left. unfold nb. destruct (nbl (fs_a s) v); [discriminate|left; auto].
      * destruct l'; discriminate.
      * intros H. destruct X6 as (_ & X6 & _); auto. split; auto. split; [cbn; repeat constructor; auto|]. split; [intros k [<-|[]]; congruence|]. cbn; lia.
      * unfold at_most. destruct ml as [m|]; auto. destruct m; [|left; apply (X5 (S m) eq_refl); cbn; lia].
        right. rewrite X3. cbn. destruct r as [|x r]; auto. exfalso. cbn [app] in X3. cbn in E1. destruct (total (fs_a s)) as [|t]; cbn [walk_loop] in E1; [|cbn [length below] in E1; rewrite andb_false_r in E1]; injection E1 as E1 _ _; rewrite <- E1 in X3; discriminate.
      * intros H1. destruct (below 1 ml) eqn:B; auto. exfalso. assert (Q : (ne' < fs_ne s)%Z) by (apply X4; [destruct (nbl (fs_a s) v); [discriminate|discriminate]|cbn; auto]). rewrite X3 in H1. cbn in H1. destruct r; cbn in *; lia.
    + intros H k. specialize (HD H k). specialize (X2 k). lia.
  - intros _ B. apply X4; [destruct (nbl (fs_a s) v); discriminate|auto].
Qed.
Lemma lin_pass ks : forall s, FInv s -> exists s', rfold (lin_step ml) ks s = Ok s' /\ FInv s' /\ (fs_ne s' <= fs_ne s)%Z
  /\ (below 1 ml = true -> (fs_ne s' < fs_ne s)%Z \/ s' = s /\ forall v, In v ks -> length (nbl (fs_a s) v) <> 1).
Proof.
  induction ks as [|v ks IH]; intros s HF; cbn [rfold].
  - exists s. split; auto. split; auto. split; [lia|]. intros _. right. split; auto.
  - destruct (lin_step_ok s v HF) as (s1 & E1 & F1 & L1 & Q1 & Q2). rewrite E1. destruct (IH s1 F1) as (s2 & E2 & F2 & L2 & Q3). exists s2. split; auto. split; auto. split; [lia|]. intros B.
    destruct (Nat.eq_dec (length (nbl (fs_a s) v)) 1) as [D|D]; [left; specialize (Q2 D B); lia|]. specialize (Q1 D). subst s1. destruct (Q3 B) as [Q|[-> Q]]; auto. right. split; auto. intros x [<-|Hx]; auto.
Qed.
Lemma cyc_ok ks : forall s, FInv s -> exists s', cyc_step ks s = Ok s' /\ FInv s'
  /\ ((fs_ne s' < fs_ne s)%Z \/ s' = s /\ forall v, In v ks -> length (nbl (fs_a s) v) <> 2).
Proof.
  induction ks as [|v ks IH]; intros s HF; cbn [cyc_step].
  - exists s. split; [auto|]. split; [auto|]. right. split; [auto|intros ? []].
  - assert (SK : length (nbl (fs_a s) v) <> 2 -> exists s', cyc_step ks s = Ok s' /\ FInv s' /\ ((fs_ne s' < fs_ne s)%Z \/ s' = s /\ forall v', In v' (v :: ks) -> length (nbl (fs_a s) v') <> 2)).
    { intros D. destruct (IH s HF) as (s' & E & F & Q). exists s'. split; auto. split; auto. destruct Q as [Q|[Q1 Q2]]; auto. right. split; auto. intros x [<-|Hx]; auto. }
    destruct (nbl (fs_a s) v) as [|x [|y [|z l]]] eqn:EN; try (apply SK; discriminate). clear SK.
    destruct HF as [HI HO HD]. pose proof (iv_s _ _ _ _ HI) as [S1 S2 S3 S4].
    assert (Hx : nb (fs_a s) v x) by (unfold nb; rewrite EN; left; auto). assert (Hy : nb (fs_a s) v y) by (unfold nb; rewrite EN; right; left; auto).
    assert (Nx : v <> x) by (intros <-; exact (S3 v Hx)). assert (Ny : v <> y) by (intros <-; exact (S3 v Hy)). assert (Nxy : x <> y). { pose proof (S2 v) as Q. rewrite EN in Q. inversion Q as [|? ? Q1 Q2]; subst. intros ->. apply Q1; left; auto. }
    destruct (del_nb_spec (fs_a s) x v (S4 _ _ Hx)) as (a1 & E1 & K1 & B1). rewrite E1. cbn [rbind].
    destruct (del_nb_spec a1 y v) as (a2 & E2 & K2 & B2). { unfold nb. rewrite B1. destruct (Nat.eqb_spec y x); [congruence|]. apply S4; auto. } rewrite E2. cbn [rbind].
    assert (V2 : nbl a2 v = [x; y]). { rewrite B2. destruct (Nat.eqb_spec v y); [congruence|]. rewrite B1. destruct (Nat.eqb_spec v x); [congruence|]. auto. }
    destruct (del_nb_spec a2 v x) as (a3 & E3 & K3 & B3). { unfold nb. rewrite V2. left; auto. } rewrite E3. cbn [rbind].
    assert (V3 : nbl a3 v = [y]). { rewrite B3, Nat.eqb_refl, V2. cbn. destruct (Nat.eq_dec x x); [|congruence]. destruct (Nat.eq_dec x y); [congruence|auto]. }
    destruct (del_nb_spec a3 v y) as (a4 & E4 & K4 & B4). { unfold nb. rewrite V3. left; auto. } rewrite E4. cbn [rbind].
    eexists. split; [reflexivity|]. cbn [fs_ne fs_a]. split; [|left; lia].
    (* first the edge to x, then the edge to y *)
    destruct (del_nb_spec (fs_a s) v x Hx) as (b1 & _ & C1 & D1).
    destruct (del_nb_spec b1 x v) as (b2 & _ & C2 & D2). { unfold nb. rewrite D1. destruct (Nat.eqb_spec x v); [congruence|]. apply S4; auto. }
    assert (I1 : Inv a0 b2 ((v, x) :: flat_map cl_edges (fs_r s)) (fs_ne s - 1)).
    { apply (inv_drop a0 (fs_a s)); auto; [congruence|]. intros k. rewrite D2, !D1. destruct (Nat.eqb_spec k v) as [->|Nk]; [destruct (Nat.eqb_spec v x); [congruence|auto]|]. destruct (Nat.eqb_spec x v); [congruence|]. reflexivity. }
    assert (Dv : nbl b2 v = [y]). { rewrite D2. destruct (Nat.eqb_spec v x); [congruence|]. rewrite D1, Nat.eqb_refl, EN. cbn. destruct (Nat.eq_dec x x); [|congruence]. destruct (Nat.eq_dec x y); [congruence|auto]. }
    assert (I2 : Inv a0 a4 ((v, y) :: (v, x) :: flat_map cl_edges (fs_r s)) (fs_ne s - 1 - 1)).
    { apply (inv_drop a0 b2); auto; [unfold nb; rewrite Dv; left; auto|congruence|]. intros k. rewrite B4. destruct (Nat.eqb_spec k v) as [->|Nk]; [rewrite V3, Dv; auto|]. rewrite B3. destruct (Nat.eqb_spec k v); [congruence|]. rewrite B2, !B1. rewrite !D2, !D1.
      destruct (Nat.eqb_spec k v); [congruence|]. destruct (Nat.eqb_spec y x); [congruence|]. destruct (Nat.eqb_spec y v); [congruence|]. destruct (Nat.eqb_spec x v); [congruence|]. destruct (Nat.eqb_spec k y) as [->|Nky]; [destruct (Nat.eqb_spec y x); [congruence|auto]|]. destruct (Nat.eqb_spec k x); auto. }
    replace (fs_ne s - 2)%Z with (fs_ne s - 1 - 1)%Z by lia.
    assert (ND : NoDup [v; x; y]) by (repeat constructor; cbn; intuition). destruct (ghz_star v [x; y] ND) as [G1 G2].
    apply (add_cluster a4 (fs_r s) _ _ [(v, y); (v, x)]); auto.
    + rewrite G2. cbn [map]. apply perm_swap.
    + split; [|left; split; [auto|right; cbn; lia]]. intros k [<-|[<-|[<-|[]]]].
      * apply (inv_key _ _ _ v x I1). left; auto.
      * apply (inv_key _ _ _ v x I1). left; auto.
      * apply (inv_key _ _ _ v y I2). left; auto.
    + intros H k. specialize (HD H k). rewrite B4. destruct (Nat.eqb_spec k v) as [->|Nk]; [rewrite V3; cbn; destruct (Nat.eq_dec y y); cbn; lia|]. rewrite B3. destruct (Nat.eqb_spec k v); [congruence|]. rewrite B2, !B1. destruct (Nat.eqb_spec y x); [congruence|].
      destruct (Nat.eqb_spec k y) as [->|Nky]; [pose proof (remove_length_le Nat.eq_dec (nbl (fs_a s) y) v); lia|]. destruct (Nat.eqb_spec k x) as [->|Nkx]; [pose proof (remove_length_le Nat.eq_dec (nbl (fs_a s) x) v); lia|auto].
Qed.
Lemma round_ok s : FInv s -> exists s', round ml s = Ok s' /\ FInv s' /\ (below 1 ml = true -> degs2 (fs_a s) -> fs_ne s <> 0%Z -> (fs_ne s' < fs_ne s)%Z).
Proof.
  intros HF. unfold round. destruct (lin_pass (dkeys (fs_a s)) s HF) as (s1 & E1 & F1 & L1 & Q1). rewrite E1. cbn [rbind].
  destruct (cyc_ok (dkeys (fs_a s1)) s1 F1) as (s2 & E2 & F2 & Q2). exists s2. split; auto. split; auto. intros B D N.
  destruct Q2 as [Q2|[-> Q2]]; [lia|]. destruct (Q1 B) as [Q|[-> Q]]; auto. exfalso. apply N. pose proof (iv_ne _ _ _ _ (fi_inv _ HF)) as T.
  assert (Z0 : total (fs_a s) = 0). { unfold total. apply sum_0. intros k Hk. specialize (Q k Hk). specialize (Q2 k Hk). specialize (D k). lia. } lia.
Qed.
Lemma ne_nonneg s : FInv s -> (0 <= fs_ne s)%Z.
Proof. intros HF. pose proof (iv_ne _ _ _ _ (fi_inv _ HF)). lia. Qed.
Lemma rounds_ok : forall fuel s, FInv s -> match rounds fuel ml s with
  | Some (Ok r) => (exists a, Inv a0 a (flat_map cl_edges r) 0) /\ Forall okc r
  | Some (Err _) => False
  | None => below 1 ml = true -> strict -> (fs_ne s <= Z.of_nat fuel)%Z -> False
  end.
Proof.
  induction fuel as [|fuel IH]; intros s HF; cbn [rounds]; destruct (Z.eqb_spec (fs_ne s) 0) as [E|E].
  - split; [exists (fs_a s); rewrite <- E; apply HF|apply HF].
  - intros _ _ H. pose proof (ne_nonneg s HF). lia.
  - split; [exists (fs_a s); rewrite <- E; apply HF|apply HF].
  - destruct (round_ok s HF) as (s' & E1 & F1 & Q). rewrite E1. specialize (IH s' F1). destruct (rounds fuel ml s') as [[r|e]|]; auto.
    intros B H L. apply IH; auto. specialize (Q B (fi_strict _ HF H) E). lia.
Qed.
Lemma sinv_finv s : SInv s -> (strict -> degs2 (fs_a s)) -> FInv s.
Proof. intros [H1 H2] H3. constructor; auto. eapply Forall_impl; [|exact H2]. intros c [Hc1 Hc2]. split; [exact Hc1|]. left. exact Hc2. Qed.
End Steps.

(** * The number of edges *)
Definition arcs (a : adj) : list (nat * nat) := flat_map (fun v => map (pair v) (nbl a v)) (dkeys a).
Lemma arcs_In a u w : In (u, w) (arcs a) <-> nb a u w.
Proof.
  unfold arcs. rewrite in_flat_map. split.
  - intros (v & H1 & H2). apply in_map_iff in H2. destruct H2 as (x & [= <- <-] & H2). exact H2.
  - intros H. exists u. split; [eapply nb_key; eauto|]. apply in_map. exact H.
Qed.
Lemma arcs_NoDup a : simple_adj a -> NoDup (arcs a).
Proof.
  intros [S1 S2 _ _]. unfold arcs. revert S1. induction (dkeys a) as [|k ks IH]; intros H; cbn [flat_map]; [constructor|]. inversion H as [|? ? N1 N2]; subst.
  apply Layer.NoDup_app; auto.
  - apply FinFun.Injective_map_NoDup; auto. intros x y [= E]. auto.
  - intros [x y] Hx Hy. apply in_map_iff in Hx. destruct Hx as (z & [= <- <-] & Hz). apply in_flat_map in Hy. destruct Hy as (k' & K1 & K2). apply in_map_iff in K2. destruct K2 as (z' & [= -> _] & _). auto.
Qed.
Lemma arcs_length a : length (arcs a) = total a.
Proof. unfold arcs, total. induction (dkeys a) as [|k ks IH]; cbn [flat_map map list_sum fold_right]; auto. rewrite app_length, map_length, IH. reflexivity. Qed.
(** each edge once, from its smaller end *)
Definition ups (a : adj) : list (nat * nat) := filter (fun e => (fst e <? snd e)%nat) (arcs a).
Lemma filter_split {A} (f g : A -> bool) l : (forall x, In x l -> g x = negb (f x)) -> length l = length (filter f l) + length (filter g l).
Proof.
  induction l as [|x l IH]; intros H; cbn [filter length]; auto. rewrite (H x) by (left; auto). rewrite (IH (fun y K => H y (or_intror K))). destruct (f x); cbn [negb length]; lia.
Qed.
Lemma ups_half a : simple_adj a -> total a = 2 * length (ups a).
Proof.
  intros SA. pose proof SA as [S1 S2 S3 S4]. rewrite <- arcs_length. unfold ups. set (up := filter _ _). set (dn := filter (fun e => (snd e <? fst e)%nat) (arcs a)).
  assert (P : length (arcs a) = length up + length dn).
  { apply filter_split. intros [u w] H. cbn [fst snd]. apply arcs_In in H. assert (u <> w) by (intros ->; exact (S3 w H)). destruct (Nat.ltb_spec u w), (Nat.ltb_spec w u); auto; lia. }
  set (sw := fun e : nat * nat => (snd e, fst e)).
  assert (INJ : FinFun.Injective sw) by (intros [x y] [z t] [= -> ->]; auto).
  assert (N1 : NoDup up) by (apply NoDup_filter, arcs_NoDup; auto). assert (N2 : NoDup dn) by (apply NoDup_filter, arcs_NoDup; auto).
  assert (L1 : length up <= length dn).
  { rewrite <- (map_length sw up). apply NoDup_incl_length; [apply FinFun.Injective_map_NoDup; auto|]. intros x Hx. apply in_map_iff in Hx. destruct Hx as ([u w] & <- & Hx). apply filter_In in Hx. apply filter_In. cbn [sw fst snd] in *. split; [|tauto]. apply arcs_In. apply S4. apply arcs_In. tauto. }
  assert (L2 : length dn <= length up).
  { rewrite <- (map_length sw dn). apply NoDup_incl_length; [apply FinFun.Injective_map_NoDup; auto|]. intros x Hx. apply in_map_iff in Hx. destruct Hx as ([u w] & <- & Hx). apply filter_In in Hx. apply filter_In. cbn [sw fst snd] in *. split; [|tauto]. apply arcs_In. apply S4. apply arcs_In. tauto. }
  lia.
Qed.
Lemma lmem_false x l : ~ In x l -> lmem x l = false.
Proof. intros H. destruct (lmem x l) eqn:E; auto. apply lmem_In in E. tauto. Qed.
Lemma number_of_edges_ups a : simple_adj a -> number_of_edges a = length (ups a).
Proof.
  intros SA. unfold number_of_edges. rewrite (map_ext_in _ (fun v => length (nbl a v))).
  - change (list_sum _) with (total a). rewrite (ups_half a SA), Nat.mul_comm. apply Nat.div_mul. lia.
  - intros v Hv. rewrite lmem_false; [lia|]. apply (sa_loop _ SA v).
Qed.

(** * The whole decomposition *)
Lemma ins_deg_In x l y : In y (ins_deg x l) <-> y = x \/ In y l.
Proof.
  induction l as [|z l IH]; cbn [ins_deg In]; [split; intros [H|H]; auto|]. destruct (_ || _); cbn [In]; [rewrite IH|]; split; intuition.
Qed.
Lemma sort_deg_In l y : In y (sort_deg l) <-> In y l.
Proof.
  unfold sort_deg. assert (G : forall acc, In y (fold_left (fun acc x => ins_deg x acc) l acc) <-> In y l \/ In y acc).
  { induction l as [|x l IH]; intros acc; cbn [fold_left In]; [tauto|]. rewrite IH, ins_deg_In. intuition. }
  rewrite G. cbn. tauto.
Qed.
Lemma sing_edges vs : flat_map cl_edges (map (fun v => ghz [v] v) vs) = [].
Proof. induction vs as [|v vs IH]; cbn [map flat_map]; auto. rewrite IH, app_nil_r. cbn. rewrite Nat.eqb_refl. reflexivity. Qed.
Lemma init_inv a mg : simple_adj a -> SInv a mg (FS a (Z.of_nat (number_of_edges a)) (map (fun v => ghz [v] v) (isolated a))).
Proof.
  intros SA. split; cbn [fs_a fs_r fs_ne].
  - rewrite sing_edges. constructor; auto.
    + constructor.
    + intros u w. cbn. tauto.
    + rewrite (ups_half a SA), (number_of_edges_ups a SA). lia.
  - apply Forall_forall. intros c Hc. apply in_map_iff in Hc. destruct Hc as (v & <- & Hv). split; [intros x [<-|[]]; apply filter_In in Hv; tauto|]. split; [apply (ghz_star v []); repeat constructor; intros []|]. right. cbn. lia.
Qed.
Lemma rounds_keeps : forall fuel ml s r, rounds fuel ml s = Some (Ok r) -> exists r', r = fs_r s ++ r'.
Proof.
  assert (L : forall ml s v s', lin_step ml s v = Ok s' -> exists r', fs_r s' = fs_r s ++ r').
  { intros ml s v s'. unfold lin_step. destruct (_ =? 1)%nat; [|intros [= <-]; exists []; rewrite app_nil_r; auto]. destruct (walk_loop _ _ _ _ _ _) as [[[n a] ne]|]; cbn [rbind]; [|discriminate]. intros [= <-]. eexists. reflexivity. }
  assert (LF : forall ml ks s s', rfold (lin_step ml) ks s = Ok s' -> exists r', fs_r s' = fs_r s ++ r').
  { intros ml ks. induction ks as [|k ks IH]; intros s s'; cbn [rfold]; [intros [= <-]; exists []; rewrite app_nil_r; auto|]. destruct (lin_step ml s k) as [s1|] eqn:E; [|discriminate]. intros H. destruct (L _ _ _ _ E) as [r1 R1]. destruct (IH _ _ H) as [r2 R2]. exists (r1 ++ r2). rewrite R2, R1, app_assoc. auto. }
  assert (CS : forall ks s s', cyc_step ks s = Ok s' -> exists r', fs_r s' = fs_r s ++ r').
  { intros ks. induction ks as [|k ks IH]; intros s s'; cbn [cyc_step]; [intros [= <-]; exists []; rewrite app_nil_r; auto|]. destruct (nbl (fs_a s) k) as [|x [|y [|z l]]]; auto.
    destruct (del_nb (fs_a s) x k) as [b1|]; cbn [rbind]; [|discriminate]. destruct (del_nb b1 y k) as [b2|]; cbn [rbind]; [|discriminate]. destruct (del_nb b2 k x) as [b3|]; cbn [rbind]; [|discriminate]. destruct (del_nb b3 k y) as [b4|]; cbn [rbind]; [|discriminate]. intros [= <-]. eexists. reflexivity. }
  induction fuel as [|fuel IH]; intros ml s r; cbn [rounds]; destruct (_ =? 0)%Z; try (intros [= <-]; exists []; rewrite app_nil_r; auto; fail); try discriminate.
  destruct (round ml s) as [s'|] eqn:E; [|discriminate]. intros H. destruct (IH _ _ _ H) as [r1 R1]. unfold round in E. destruct (rfold _ _ s) as [s1|] eqn:E1; cbn [rbind] in E; [|discriminate]. destruct (LF _ _ _ _ E1) as [r2 R2]. destruct (CS _ _ _ E) as [r3 R3]. exists ((r2 ++ r3) ++ r1). rewrite R1, R3, R2, !app_assoc. auto.
Qed.
Lemma star_fold_keeps mg : forall vs s s', rfold (star_step mg) vs s = Ok s' -> exists r', fs_r s' = fs_r s ++ r'.
Proof.
  induction vs as [|k vs IH]; intros s s'; cbn [rfold]; [intros [= <-]; exists []; rewrite app_nil_r; auto|]. destruct (star_step mg s k) as [s1|] eqn:E; [|discriminate]. intros H. destruct (IH _ _ H) as [r2 R2].
  unfold star_step in E. destruct (2 <? _)%nat; [|injection E as <-; exists r2; auto]. destruct (star_loop _ _ _ _ _ _) as [[[n a] ne]|]; cbn [rbind] in E; [|discriminate]. injection E as <-. cbn [fs_r] in R2. rewrite <- app_assoc in R2. eexists. exact R2.
Qed.
