(** C60: the drawing of a causal flow or of XZ-corrections shows it. *)
From Coq Require Import Reals Lra Arith List Bool Lia Permutation.
From Verif Require Import NSet Layer Fundamentals Measure Pattern OpenGraph FlowSpec Flow PropFlow Draw DrawThm DrawGeo.
Import ListNotations.
Local Open Scope nat_scope.

Lemma layer_bound (ls : list nset) i n : in_layer ls i n -> i < length ls.
Proof. intros (l & E & _). apply nth_error_Some. congruence. Qed.

(** ** Positions *)
(** a causal flow: every node is placed, no two nodes at the same point; a node
    and the node that corrects it are on the same row, the corrected one strictly
    to the left; the column is given by the layer; the loops end within as many
    steps per chain as there are layers *)
Theorem C60_layout : forall it f fuel, iter_ok it -> og_ok (pf_og f) -> NoDup (dkeys (pf_cf f)) ->
  causal_flow (pf_og f) (pf_cf f) (pf_layers f) -> length (pf_layers f) <= fuel ->
  exists pos, cf_positions it fuel f = Ok pos /\
    (forall n, In n (g_nodes (og_graph (pf_og f))) <-> exists p, dget pos n = Some p) /\
    (forall u v p, dget pos u = Some p -> dget pos v = Some p -> u = v) /\
    (forall u s v, dget (pf_cf f) u = Some s -> mem v s = true ->
       exists xu xv y, dget pos u = Some (xu, y) /\ dget pos v = Some (xv, y) /\ xu < xv) /\
    (forall n i, in_layer (pf_layers f) i n -> exists y, dget pos n = Some (length (pf_layers f) - 1 - i, y)) /\
    (forall u v xu yu xv yv, prec (pf_layers f) u v -> dget pos u = Some (xu, yu) -> dget pos v = Some (xv, yv) -> xu < xv).
Proof.
  intros it f fuel Hit OK ND CF Lf. destruct (cf_positions_spec it f fuel Hit (ok_graph _ OK) ND CF Lf) as (pos & E & D & P).
  set (ls := pf_layers f) in *. set (cf := pf_cf f) in *. set (og := pf_og f) in *.
  assert (NL : forall n p, dget pos n = Some p -> exists i, in_layer ls i n).
  { intros n p Hn. apply (node_layer og cf ls CF). apply D. congruence. }
  assert (ST : forall r k, nth_error (it (start_nodes f)) r = Some k -> forall m, ~ cstep cf m k).
  { intros r k Er m (s & Es & M). apply nth_error_In, (iter_In it _ k Hit) in Er. unfold start_nodes in Er. fold cf og in Er.
    rewrite mem_sdiff, andb_true_iff, negb_true_iff in Er. destruct Er as [_ B]. apply Bool.not_true_iff_false in B. apply B.
    apply mem_fold_union. exists (m, s). split; auto. apply dget_In; auto. }
  assert (NDS : forall r r' k, nth_error (it (start_nodes f)) r = Some k -> nth_error (it (start_nodes f)) r' = Some k -> r = r').
  { intros r r' k A B. eapply (proj1 (NoDup_nth_error _) (iter_NoDup it (start_nodes f) Hit)); [apply nth_error_Some; congruence|congruence]. }
  exists pos. split; auto. split; [|split; [|split; [|split]]].
  - intros n. rewrite <- D. destruct (dget pos n) as [p|]; split; try congruence; eauto. intros (p & [=]).
  - intros u v p Hu Hv. destruct (NL u p Hu) as [i Hi]. destruct (NL v p Hv) as [j Hj].
    destruct (P u i Hi) as (r & k & a & Er & C & Du). destruct (P v j Hj) as (r' & k' & b & Er' & C' & Dv).
    rewrite Hu in Du. rewrite Hv in Dv. injection Du as ->. injection Dv as X Y. subst r'.
    rewrite Er in Er'. injection Er' as <-. pose proof (layer_bound _ _ _ Hi). pose proof (layer_bound _ _ _ Hj).
    assert (i = j) by lia. subst j.
    assert (K : forall a b u v, on_chain cf k a u -> on_chain cf k b v -> in_layer ls i u -> in_layer ls i v -> a <= b -> u = v).
    { clear - CF. intros a b u v C C' Hi Hj L. revert v a L C C' Hj. induction b; intros v a L C C' Hj.
      - assert (a = 0) by lia. subst. eapply (on_chain_fun og cf ls CF); eauto.
      - destruct (Nat.eq_dec a (S b)) as [->|Ne]; [eapply (on_chain_fun og cf ls CF); eauto|]. exfalso.
        assert (M : exists c, on_chain cf u c v /\ 0 < c).
        { clear IHb. assert (L' : a < S b) by lia. clear L Ne Hj. revert v C'.
          remember (S b) as c eqn:Ec. assert (a < c) by lia. clear Ec b L'. induction c; intros v C'; [lia|].
          inversion C'; subst. destruct (Nat.eq_dec a c) as [->|Ne].
          - exists 1. split; [|lia]. rewrite (on_chain_fun og cf ls CF _ _ _ _ C H1). econstructor; [constructor|auto].
          - destruct (IHc ltac:(lia) n H1) as (d & C2 & _). exists (S d). split; [|lia]. econstructor; eauto. }
        destruct M as (c & Cc & Lc). pose proof (on_chain_len og cf ls CF _ _ _ _ _ Cc Hi Hj). lia. }
    destruct (Nat.le_ge_cases a b); [eapply K; eauto|symmetry; eapply K; eauto].
  - intros u s v Es M. assert (S : cstep cf u v) by (exists s; auto). pose proof (cstep_prec og cf ls CF _ _ S) as Pr.
    destruct Pr as (i & j & Hi & Hj & L). destruct (P u i Hi) as (r & k & a & Er & C & Du). destruct (P v j Hj) as (r' & k' & b & Er' & C' & Dv).
    destruct (on_chain_start og cf ls CF k k' (Datatypes.S a) b v (ST _ _ Er) (ST _ _ Er')) as [<- _]; auto; [econstructor; eauto|].
    rewrite (NDS _ _ _ Er' Er) in Dv. pose proof (layer_bound _ _ _ Hi).
    do 3 eexists. split; [exact Du|]. split; [exact Dv|]. lia.
  - intros n i Hi. destruct (P n i Hi) as (r & k & a & Er & C & Du). eauto.
  - intros u v xu yu xv yv (i & j & Hi & Hj & L) Hu Hv. destruct (P u i Hi) as (r & k & a & Er & C & Du). destruct (P v j Hj) as (r' & k' & b & Er' & C' & Dv).
    rewrite Hu in Du; rewrite Hv in Dv. injection Du as -> ->. injection Dv as -> ->. pose proof (layer_bound _ _ _ Hi). lia.
Qed.
Print Assumptions C60_layout.
(** the line 0 - 1 - 2, and two chains joined by an edge *)
Example line_positions a b : cf_positions elems 3 (line_cf a b) = Ok [(0, (0, 0)); (1, (1, 0)); (2, (2, 0))].
Proof. reflexivity. Qed.
Definition two_og (a b : R) : opengraph :=
  OG (Graph [0; 1; 2; 3] [(0, 2); (1, 3); (2, 3)]) [0; 1] [2; 3] [(0, MBloch a PXY); (1, MBloch b PXY)] [].
Definition two_cf (a b : R) : pflow := PF (two_og a b) [(0, sing 2); (1, sing 3)] [of_list [2; 3]; of_list [0; 1]].
Example two_cf_ok a b : cf_check elems (two_cf a b) = Ok tt /\ cf_positions elems 2 (two_cf a b) = Ok [(0, (0, 0)); (1, (0, 1)); (2, (1, 0)); (3, (1, 1))].
Proof. vm_compute. auto. Qed.
(** the chain loop does not end on a cycle: the fuel is needed *)
Example cycle_no_fuel : forall fuel d, chain_loop elems [(0, sing 0)] fuel 0 0 [(0, d)] = Err EFuel.
Proof. intros fuel. induction fuel; intros [x y]; [reflexivity|]. exact (IHfuel (x, 0)). Qed.

(** the numbers written below the columns are the numbers of the layers: layer
    [i] (column [n - 1 - i]) has the number [i] below it, once *)
Theorem C60_layer_texts : forall n dx, 0 < n -> forall x i,
  (In (x, i) (layer_texts n dx) <-> i < n /\ x = (INR (n - 1 - i) * dx)%R) /\ NoDup (map snd (layer_texts n dx)).
Proof.
  intros n dx Ln x i. unfold layer_texts. split.
  - rewrite in_app_iff, in_map_iff. split.
    + intros [(l & E & I)|[E|[]]].
      * injection E as <- <-. apply in_seq in I. split; [lia|]. do 2 f_equal. lia.
      * injection E as <- <-. split; [lia|]. do 2 f_equal. lia.
    + intros [L ->]. destruct i as [|i]; [right; left; do 3 f_equal; lia|].
      left. exists (n - 1 - S i). split; [f_equal; lia|]. apply in_seq. lia.
  - rewrite map_app, map_map. cbn [map snd].
    apply (Permutation_NoDup (l := 0 :: map (fun l => n - 1 - l) (seq 0 (n - 1)))).
    + apply Permutation_cons_append.
    + constructor.
      * rewrite in_map_iff. intros (l & E & I). apply in_seq in I. lia.
      * apply (NoDup_map_inv (fun k => n - 1 - k)). rewrite map_map.
        rewrite (map_ext_in _ (fun l => l)); [rewrite map_id; apply seq_NoDup|]. intros l I. apply in_seq in I. lia.
Qed.
Print Assumptions C60_layer_texts.
Example layer_texts_3 : layer_texts 3 1 = [((INR 0 * 1)%R, 2); ((INR 1 * 1)%R, 1); ((INR 2 * 1)%R, 0)].
Proof. reflexivity. Qed.

(** ** Arrows *)
(** [u -> v] is an arrow of the drawing of a flow exactly when [v] is in the
    correction set of [u], and it is drawn once *)
Theorem C60_flow_arrows : forall it f, iter_ok it -> NoDup (dkeys (pf_cf f)) ->
  (forall u v c, In ((u, v), c) (flow_arrows it f) <-> c = FLOW_C /\ exists s, dget (pf_cf f) u = Some s /\ mem v s = true) /\
  NoDup (map fst (flow_arrows it f)).
Proof.
  intros it f Hit ND. unfold flow_arrows. split.
  - intros u v c. rewrite in_flat_map. split.
    + intros ((k, s) & I & M). apply in_map_iff in M as (w & E & M). cbn in *. injection E as <- <- <-. split; auto.
      exists s. split; [apply In_dget; auto|]. apply (iter_In it s w Hit); auto.
    + intros (-> & s & E & M). exists (u, s). split; [apply dget_In; auto|]. apply in_map_iff. exists v. split; auto. apply (iter_In it s v Hit); auto.
  - revert ND. induction (pf_cf f) as [|[k s] d IH]; intros ND; cbn [flat_map map]; [constructor|].
    cbn [dkeys map fst] in ND. inversion ND; subst. rewrite map_app, map_map. cbn [fst snd]. apply Layer.NoDup_app.
    + apply FinFun.Injective_map_NoDup; [intros x y [= ->]; auto|apply iter_NoDup; auto].
    + apply IH; auto.
    + intros [u v] I J. apply in_map_iff in I as (w & [= <- <-] & _). apply in_map_iff in J as ((a & c) & E & J). cbn in E; subst a.
      apply in_flat_map in J as ((k' & s') & J & M). apply in_map_iff in M as (w' & [= -> _ _] & _). apply H1. apply (in_map fst) in J; exact J.
Qed.
Print Assumptions C60_flow_arrows.

Lemma dgets_mem d u v : mem v (dgets d u) = true <-> exists s, dget d u = Some s /\ mem v s = true.
Proof.
  unfold dgets. destruct (dget d u) as [s|]; [split; [eauto|intros (s' & [= <-] & H); auto]|].
  rewrite mem_empty. split; [discriminate|intros (s' & [=] & _)].
Qed.
(** the arrows of XZ-corrections: from each measured node to the nodes it
    corrects, in one colour which tells whether X, Z or both corrections *)
Definition corrects (d : dict nset) (u v : nat) : Prop := exists s, dget d u = Some s /\ mem v s = true.
Theorem C60_xz_arrows : forall it xz, iter_ok it -> NoDup (dkeys (og_meas (xz_og xz))) ->
  (forall u v c, In ((u, v), c) (xz_arrows it xz) <-> In u (dkeys (og_meas (xz_og xz))) /\
     (c = X_C /\ corrects (xz_x xz) u v /\ ~ corrects (xz_z xz) u v \/
      c = Z_C /\ ~ corrects (xz_x xz) u v /\ corrects (xz_z xz) u v \/
      c = XZ_C /\ corrects (xz_x xz) u v /\ corrects (xz_z xz) u v)) /\
  NoDup (map fst (xz_arrows it xz)).
Proof.
  intros it xz Hit ND. unfold xz_arrows, corrects. split.
  - intros u v c. rewrite in_flat_map. rewrite <- !dgets_mem. split.
    + intros (k & I & M). rewrite !in_app_iff, !in_map_iff in M.
      destruct M as [(w & [= <- <- <-] & M)|[(w & [= <- <- <-] & M)|(w & [= <- <- <-] & M)]];
        apply (iter_In it _ w Hit) in M; (split; [exact I|]); autorewrite with nset in M;
        destruct (mem w (dgets (xz_x xz) k)), (mem w (dgets (xz_z xz) k)); try discriminate; intuition congruence.
    + intros (I & H). exists u. split; auto. rewrite !in_app_iff, !in_map_iff.
      destruct H as [(-> & A & B)|[(-> & A & B)|(-> & A & B)]]; [left|right; left|right; right];
        exists v; (split; [reflexivity|]); apply (iter_In it _ v Hit); autorewrite with nset;
        destruct (mem v (dgets (xz_x xz) u)), (mem v (dgets (xz_z xz) u)); cbn; congruence.
  - revert ND. induction (dkeys (og_meas (xz_og xz))) as [|u ks IH]; intros ND; cbn [flat_map]; [constructor|].
    inversion ND; subst. rewrite map_app. apply Layer.NoDup_app.
    + set (x := dgets (xz_x xz) u). set (z := dgets (xz_z xz) u). rewrite !map_app, !map_map. cbn [fst].
      rewrite <- !map_app. apply FinFun.Injective_map_NoDup; [intros v w [= ->]; auto|].
      apply Layer.NoDup_app; [apply iter_NoDup; auto| |].
      * apply Layer.NoDup_app; try (apply iter_NoDup; auto). intros v A B. apply (iter_In it _ v Hit) in A, B. autorewrite with nset in A, B.
        destruct (mem v x), (mem v z); discriminate.
      * intros v A B. apply in_app_iff in B as [B|B]; apply (iter_In it _ v Hit) in A, B; autorewrite with nset in A, B;
          destruct (mem v x), (mem v z); discriminate.
    + apply IH; auto.
    + intros [a b] A B.
      assert (K : forall k, In (a, b) (map fst (let x := dgets (xz_x xz) k in let z := dgets (xz_z xz) k in let b := sinter x z in
         map (fun v => ((k, v), X_C)) (it (sdiff x b)) ++ map (fun v => ((k, v), Z_C)) (it (sdiff z b)) ++ map (fun v => ((k, v), XZ_C)) (it b))) -> a = k).
      { intros k Hk. cbn zeta in Hk. rewrite !map_app, !map_map, !in_app_iff, !in_map_iff in Hk. cbn in Hk.
        destruct Hk as [(? & [=] & _)|[(? & [=] & _)|(? & [=] & _)]]; auto. }
      apply K in A. subst a. apply in_map_iff in B as (y & Ey & B). apply in_flat_map in B as (k & Ik & B).
      assert (u = k); [|subst; auto]. apply K. apply in_map_iff. exists y. auto.
Qed.
Print Assumptions C60_xz_arrows.
(** the three colours *)
Example xz_arrows_colours m : xz_arrows elems (XZ (OG (Graph [0; 1; 2; 3] []) [] [1; 2; 3] [(0, m)] []) [(0, of_list [1; 2])] [(0, of_list [2; 3])] [])
  = [((0, 1), X_C); ((0, 3), Z_C); ((0, 2), XZ_C)].
Proof. reflexivity. Qed.

(** ** Curves *)
Local Open Scope R_scope.
(** a segment is near a node when the foot of the perpendicular from the node is
    on the segment, at a distance smaller than [buffer] *)
Theorem C60_near : forall s e n buffer,
  edge_intersects_node s e n buffer = true <->
  s <> e /\ exists t, 0 <= t <= 1 /\ let q := padd s (pscale t (psub e s)) in
    pdot (psub n q) (psub e s) = 0 /\ pnorm (psub q n) < buffer.
Proof. exact edge_intersects_spec. Qed.
Print Assumptions C60_near.
Example near_middle : edge_intersects_node (0, 0) (1, 0) (1 / 2, 0) (5 / 100) = true.
Proof.
  apply C60_near. split; [intros [= E]; lra|]. exists (1 / 2). split; [lra|]. cbn. unfold pdot, psub, padd, pscale; cbn. split; [ring|].
  apply pnorm_lt; [lra|]. unfold pdot; cbn. lra.
Qed.
(** a control point is at the given distance of the node, in the direction
    orthogonal to the segment and towards it, so on its other side as soon as the
    node is nearer to the line than the distance *)
Theorem C60_control_point : forall s e n dist, s <> e -> exists c, control_point s e n dist = Ok c /\
  (0 <= dist -> pnorm (psub c n) = dist) /\ pdot (psub c n) (psub e s) = 0 /\
  (0 < cross2d (psub e s) (psub n s) -> cross2d (psub e s) (psub c s) = cross2d (psub e s) (psub n s) - dist * pnorm (psub e s)) /\
  (cross2d (psub e s) (psub n s) <= 0 -> cross2d (psub e s) (psub c s) = cross2d (psub e s) (psub n s) + dist * pnorm (psub e s)).
Proof. exact control_point_spec. Qed.
Print Assumptions C60_control_point.
(** a curve starts at the first point of its path, ends at the last one and
    stays in their convex hull *)
Theorem C60_curve : forall path, path <> [] ->
  bezier_curve path 0 = hd (0, 0) path /\ bezier_curve path 1 = last path (0, 0) /\
  forall t u v w, 0 <= t <= 1 -> (forall p, In p path -> u * fst p + v * snd p <= w) ->
    u * fst (bezier_curve path t) + v * snd (bezier_curve path t) <= w.
Proof.
  intros path N. split; [apply bezier_start; auto|]. split; [apply bezier_end; auto|]. intros; apply bezier_hull; auto.
Qed.
Print Assumptions C60_curve.

(** ** The drawing *)
Lemma dget_map {A B} (f : A -> B) (d : dict A) n : dget (map (fun kv => (fst kv, f (snd kv))) d) n = option_map f (dget d n).
Proof. induction d as [|[k v] d IH]; cbn; auto. destruct (k =? n)%nat; auto. Qed.
Definition place (nd : R * R) (p : nat * nat) : point := (INR (fst p) * fst nd, INR (snd p) * snd nd).
Lemma scaled nd (d : dict (nat * nat)) n : dget (scale_positions nd (map (fun kv => (fst kv, to_point (snd kv))) d)) n = option_map (place nd) (dget d n).
Proof.
  assert (K : dget (map (fun kv => (fst kv, (fst (snd kv) * fst nd, snd (snd kv) * snd nd))) (map (fun kv => (fst kv, to_point (snd kv))) d)) n = option_map (place nd) (dget d n)).
  { rewrite (dget_map (fun p : point => (fst p * fst nd, snd p * snd nd))), (dget_map to_point). destruct (dget d n); auto. }
  unfold scale_positions. destruct (Req_EM_T (fst nd) 1) as [E1|]; auto. destruct (Req_EM_T (snd nd) 1) as [E2|]; auto.
  rewrite (dget_map to_point). destruct (dget d n) as [[x y]|]; auto. cbn. unfold place, to_point; cbn. rewrite E1, E2, !Rmult_1_r. auto.
Qed.
Lemma pnorm_ge p : Rabs (fst p) <= pnorm p /\ Rabs (snd p) <= pnorm p.
Proof.
  pose proof (pnorm_pos p) as P. pose proof (pnorm_sq p) as Q. unfold pdot in Q.
  split; apply Rsqr_incr_0_var; auto; rewrite <- Rsqr_abs; unfold Rsqr; nra.
Qed.
Lemma INR_far a b : a <> b -> 1 <= Rabs (INR a - INR b).
Proof.
  intros N. rewrite !INR_IZR_INZ, <- minus_IZR, <- abs_IZR. apply IZR_le. lia.
Qed.
Lemma place_far nd p q : 2 / 10 <= fst nd -> 2 / 10 <= snd nd -> p <> q -> 2 / 10 <= pnorm (psub (place nd p) (place nd q)).
Proof.
  intros A B N. destruct (pnorm_ge (psub (place nd p) (place nd q))) as [X Y].
  set (k := pnorm _) in *. clearbody k. unfold place, psub in X, Y; cbn [fst snd] in X, Y.
  rewrite <- Rmult_minus_distr_r, Rabs_mult in X, Y. rewrite (Rabs_pos_eq (fst nd)) in X by lra. rewrite (Rabs_pos_eq (snd nd)) in Y by lra.
  destruct (Nat.eq_dec (fst p) (fst q)) as [E|E].
  - assert (E' : snd p <> snd q) by (intros E'; apply N; destruct p, q; cbn in *; congruence).
    apply INR_far in E'. eapply Rle_trans; [|exact Y]. apply Rle_trans with (1 * snd nd); [lra|]. apply Rmult_le_compat_r; lra.
  - apply INR_far in E. eapply Rle_trans; [|exact X]. apply Rle_trans with (1 * fst nd); [lra|]. apply Rmult_le_compat_r; lra.
Qed.

Lemma edge_eqb_spec a b : edge_eqb a b = true <-> a = b.
Proof. unfold edge_eqb. rewrite andb_true_iff, !Nat.eqb_eq. destruct a, b; cbn. split; [intros [-> ->]; auto|intros [= -> ->]; auto]. Qed.
Lemma aset_new {A} (d : list (arrow * A)) a v : ~ In a (map fst d) -> aset d a v = d ++ [(a, v)].
Proof.
  induction d as [|[b w] d IH]; cbn; auto. intros N. destruct (edge_eqb b a) eqn:E; [apply edge_eqb_spec in E; subst; tauto|].
  rewrite IH; auto.
Qed.
Lemma fold_aset {X P A} (g : X -> res P) (key : X -> arrow) (h : X -> P -> A) (l : list X) : NoDup (map key l) ->
  (forall x, In x l -> exists p, g x = Ok p) -> forall acc, (forall x, In x l -> ~ In (key x) (map fst acc)) ->
  exists r, rfold (fun d x => do p <- g x; Ok (aset d (key x) (h x p))) l acc = Ok (acc ++ r) /\
    Forall2 (fun x y => exists p, g x = Ok p /\ y = (key x, h x p)) l r.
Proof.
  induction l as [|x l IH]; intros ND G acc N; cbn [rfold].
  - exists []. rewrite app_nil_r. auto.
  - cbn [map] in ND. inversion ND; subst. destruct (G x (or_introl eq_refl)) as (p & Ep). rewrite Ep. cbn [rbind].
    rewrite aset_new by (apply N; left; auto). destruct (IH H2 (fun y Hy => G y (or_intror Hy)) (acc ++ [(key x, h x p)])) as (r & -> & F).
    { intros y Hy. rewrite map_app, in_app_iff. cbn. intros [I|[I|[]]]; [apply (N y); auto; right; auto|].
      apply H1. rewrite I. apply in_map; auto. }
    exists ((key x, h x p) :: r). rewrite <- app_assoc. split; auto. constructor; eauto.
Qed.
Lemma Forall2_In_l {A B} (P : A -> B -> Prop) l m x : Forall2 P l m -> In x l -> exists y, In y m /\ P x y.
Proof. induction 1; intros []; [subst; exists y; split; [left|]; auto|]. destruct (IHForall2 H1) as (z & I & Q). exists z; split; [right|]; auto. Qed.
Lemma Forall2_In_r {A B} (P : A -> B -> Prop) l m y : Forall2 P l m -> In y m -> exists x, In x l /\ P x y.
Proof. induction 1; intros []; [subst; exists x; split; [left|]; auto|]. destruct (IHForall2 H1) as (z & I & Q). exists z; split; [right|]; auto. Qed.
Lemma Forall2_map_eq {A B C} (f : A -> C) (g : B -> C) (P : A -> B -> Prop) l m : (forall x y, P x y -> f x = g y) -> Forall2 P l m -> map f l = map g m.
Proof. intros H. induction 1; cbn; f_equal; auto. Qed.

(** what an arrow from [p] to [q] looks like: a straight line, or a curve from
    [p] to a point at distance 0.2 of [q] *)
Definition shows (p q : point) (s : stroke) : Prop :=
  s = Straight \/ exists path, s = Curve path /\ path <> [] /\ bezier_curve path 0 = p /\ pnorm (psub q (bezier_curve path 1)) = 2 / 10.

Lemma arrow_path_spec it pos edges a p q : iter_ok it -> dget pos (fst a) = Some p -> dget pos (snd a) = Some q -> fst a <> snd a ->
  2 / 10 <= pnorm (psub p q) -> exists path s, arrow_path it pos edges a = Ok path /\ arrow_stroke a path = Ok s /\ shows p q s.
Proof.
  intros Hit Dp Dq Ne Far. assert (Npq : p <> q).
  { intros ->. assert (Z : psub q q = (0, 0)) by (unfold psub; f_equal; ring). rewrite Z in Far. unfold pnorm, pdot in Far; cbn in Far.
    replace (0 * 0 + 0 * 0) with 0 in Far by ring. rewrite sqrt_0 in Far. lra. }
  unfold arrow_path. rewrite Dp, Dq. cbn [of_opt rbind]. destruct (Nat.eqb_spec (fst a) (snd a)) as [E|_]; [contradiction|].
  set (x := if existsb _ edges then _ else _).
  assert (X : exists path, x = Ok path /\ from_to p q path).
  { unfold x. assert (F0 : from_to p q [p; q]) by (exists []; auto). destruct (existsb _ edges); [|eauto].
    cbn zeta. destruct (edge_intersects_node _ _ _ _); [|eauto].
    destruct (control_point_spec p q (1 / 2 * (fst p + fst q), 1 / 2 * (snd p + snd q)) (2 / 10) Npq) as (c & -> & _). cbn [rbind].
    eexists; split; [reflexivity|]. exists [c]; auto. }
  destruct X as (path & -> & F). cbn [rbind].
  destruct (find_bezier_spec it Hit pos a p q Npq path Dq F) as (r & -> & (far & Er & Hfar) & FR). specialize (FR Far).
  exists r. unfold arrow_stroke. destruct (Nat.eqb_spec (length r) 2) as [L|L].
  - exists Straight. split; auto. split; auto. left; auto.
  - destruct (Nat.eqb_spec (fst a) (snd a)) as [E|_]; [contradiction|].
    destruct FR as (m & Em). destruct m as [|m0 m]; [exfalso; apply L; rewrite Em; auto|].
    assert (Nm : m0 :: m <> []) by discriminate. destruct (exists_last Nm) as (m' & s & Es).
    assert (Er2 : r = (p :: m') ++ [s; q]). { rewrite Em, Es, <- app_assoc. auto. }
    assert (Hs : 2 / 10 <= pnorm (psub s q)).
    { apply Hfar. rewrite Er2 in Er. change (p :: m') with ([p] ++ m') in Er.
      replace (([p] ++ m') ++ [s; q]) with ((([p] ++ m') ++ [s]) ++ [q]) in Er by (rewrite <- !app_assoc; auto).
      apply app_inj_tail in Er as [<- _]. apply in_app_iff. right; left; auto. }
    assert (Nsq : s <> q).
    { intros ->. assert (Z : psub q q = (0, 0)) by (unfold psub; f_equal; ring). rewrite Z in Hs. unfold pnorm, pdot in Hs; cbn in Hs.
      replace (0 * 0 + 0 * 0) with 0 in Hs by ring. rewrite sqrt_0 in Hs. lra. }
    destruct (shorten_spec r (p :: m') s q Er2 Nsq) as (e & -> & D & _). cbn [rbind].
    eexists; split; [reflexivity|]. split; [reflexivity|]. right. eexists; split; [reflexivity|]. split; [discriminate|]. split.
    + rewrite bezier_start by discriminate. auto.
    + rewrite bezier_end by discriminate. replace ((p :: m') ++ [s; e]) with (((p :: m') ++ [s]) ++ [e]) by (rewrite <- app_assoc; auto).
      rewrite last_last. auto.
Qed.
Lemma strokes_spec : forall d, (forall a p c, In (a, (p, c)) d -> exists s, arrow_stroke a p = Ok s) ->
  exists r, strokes d = Ok r /\ Forall2 (fun x y => fst y = fst x /\ snd (snd y) = snd (snd x) /\ arrow_stroke (fst x) (fst (snd x)) = Ok (fst (snd y))) d r.
Proof.
  induction d as [|[a [p c]] d IH]; intros H; cbn [strokes]; [eauto|].
  destruct (H a p c (or_introl eq_refl)) as (s & Es). rewrite Es. cbn [rbind].
  destruct IH as (r & -> & F); [intros; eapply H; right; eauto|]. cbn [rbind]. eexists; split; [reflexivity|]. constructor; auto.
Qed.

(** drawing a causal flow, with nodes at least 0.2 apart: nothing fails; the nodes
    are at distinct points; each edge of the graph is a path between its nodes;
    the arrows are the corrections, each drawn once, from the corrected node to
    the one that corrects it *)
Theorem C60_drawing : forall it f fuel nd, iter_ok it -> og_ok (pf_og f) -> simple (og_graph (pf_og f)) -> NoDup (dkeys (pf_cf f)) ->
  causal_flow (pf_og f) (pf_cf f) (pf_layers f) -> (length (pf_layers f) <= fuel)%nat -> 2 / 10 <= fst nd -> 2 / 10 <= snd nd ->
  exists pos es ss, draw_causal_flow it fuel nd f = Ok (pos, es, ss) /\
    (forall n, In n (g_nodes (og_graph (pf_og f))) <-> exists p, dget pos n = Some p) /\
    (forall u v p, dget pos u = Some p -> dget pos v = Some p -> u = v) /\
    (forall n i, in_layer (pf_layers f) i n -> exists y, dget pos n = Some (INR (length (pf_layers f) - 1 - i) * fst nd, y)) /\
    map fst es = g_edges (og_graph (pf_og f)) /\
    (forall u v path, In ((u, v), path) es -> exists p q, dget pos u = Some p /\ dget pos v = Some q /\ from_to p q path) /\
    NoDup (map fst ss) /\
    (forall u v, In (u, v) (map fst ss) <-> corrects (pf_cf f) u v) /\
    (forall u v s c, In ((u, v), (s, c)) ss -> c = FLOW_C /\ exists p q, dget pos u = Some p /\ dget pos v = Some q /\ fst p < fst q /\ snd p = snd q /\ shows p q s).
Proof.
  intros it f fuel nd Hit OK SI ND CF Lf Dx Dy.
  destruct (C60_layout it f fuel Hit OK ND CF Lf) as (d & Ed & Dn & Dinj & Dcf & Dl & _).
  unfold draw_causal_flow. rewrite Ed. cbn [rbind].
  set (pos := scale_positions nd (map (fun kv => (fst kv, to_point (snd kv))) d)).
  assert (SC : forall n, dget pos n = option_map (place nd) (dget d n)) by (intros; apply scaled).
  assert (Pn : forall n, In n (g_nodes (og_graph (pf_og f))) <-> exists p, dget pos n = Some p).
  { intros n. rewrite Dn, SC. destruct (dget d n) as [z|]; cbn; split; intros (p & E); try discriminate; eauto. }
  assert (FarP : forall u v p q, dget pos u = Some p -> dget pos v = Some q -> u <> v -> 2 / 10 <= pnorm (psub p q)).
  { clear - SC Dinj Dx Dy. intros u v p q. rewrite !SC. destruct (dget d u) as [x|] eqn:Eu; [|discriminate]. destruct (dget d v) as [y|] eqn:Ev; [|discriminate].
    cbn. intros [= <-] [= <-] N. apply place_far; auto. intros ->. apply N. eapply Dinj; eauto. }
  assert (NE : forall p q : point, 2 / 10 <= pnorm (psub p q) -> p <> q).
  { intros p q Far ->. assert (Z : psub q q = (0, 0)) by (unfold psub; f_equal; ring). rewrite Z in Far. unfold pnorm, pdot in Far; cbn in Far.
    replace (0 * 0 + 0 * 0) with 0 in Far by ring. rewrite sqrt_0 in Far. lra. }
  destruct (ok_graph _ OK) as (_ & NDe & Ge).
  (* edges *)
  set (g := fun e : arrow => do p <- of_opt EKey (dget pos (fst e)); do q <- of_opt EKey (dget pos (snd e)); find_bezier_path it e [p; q] pos).
  assert (EE : forall e, In e (g_edges (og_graph (pf_og f))) -> exists p q path, dget pos (fst e) = Some p /\ dget pos (snd e) = Some q /\ g e = Ok path /\ from_to p q path).
  { intros e He. destruct (Ge e He) as [A B]. apply Pn in A as (p & Ep). apply Pn in B as (q & Eq). exists p, q.
    pose proof (FarP _ _ _ _ Ep Eq (SI e He)) as Far.
    destruct (find_bezier_spec it Hit pos e p q (NE _ _ Far) [p; q] Eq ltac:(exists []; auto)) as (r & Er & _ & FR).
    exists r. unfold g. rewrite Ep, Eq. cbn [of_opt rbind]. auto. }
  destruct (fold_aset g (fun e => e) (fun _ p => p) (g_edges (og_graph (pf_og f)))) with (acc := @nil (arrow * list point)) as (es & Ees & Fes).
  { rewrite map_id. eapply NoDup_map_inv; eauto. }
  { intros e He. destruct (EE e He) as (p & q & path & _ & _ & Eg & _). eauto. }
  { intros x _ []. }
  assert (EP : edge_paths it pos (g_edges (og_graph (pf_og f))) = Ok es).
  { unfold edge_paths. cbn [app] in Ees. rewrite <- Ees. generalize (@nil (arrow * list point)). clear.
    induction (g_edges (og_graph (pf_og f))) as [|e l IH]; intros acc; cbn [rfold]; auto.
    unfold g at 1. destruct (of_opt EKey (dget pos (fst e))) as [p|]; cbn [rbind]; auto.
    destruct (of_opt EKey (dget pos (snd e))) as [q|]; cbn [rbind]; auto. destruct (find_bezier_path it e [p; q] pos); cbn [rbind]; auto. }
  rewrite EP. cbn [rbind].
  (* arrows *)
  destruct (C60_flow_arrows it f Hit ND) as [AI AN].
  assert (AA : forall a c, In (a, c) (flow_arrows it f) -> exists p q path s, dget pos (fst a) = Some p /\ dget pos (snd a) = Some q /\
     arrow_path it pos (g_edges (og_graph (pf_og f))) a = Ok path /\ arrow_stroke a path = Ok s /\ shows p q s /\ fst p < fst q /\ snd p = snd q).
  { intros [u v] c I. apply AI in I as (_ & s & Es & M). destruct (Dcf u s v Es M) as (xu & xv & y & Eu & Ev & L).
    exists (place nd (xu, y)), (place nd (xv, y)).
    assert (Pu : dget pos u = Some (place nd (xu, y))) by (rewrite SC, Eu; auto).
    assert (Pv : dget pos v = Some (place nd (xv, y))) by (rewrite SC, Ev; auto).
    assert (Nuv : u <> v) by (intros ->; rewrite Eu in Ev; injection Ev; lia).
    destruct (arrow_path_spec it pos (g_edges (og_graph (pf_og f))) (u, v) _ _ Hit Pu Pv Nuv (FarP _ _ _ _ Pu Pv Nuv)) as (path & st & A & B & C).
    exists path, st. cbn [fst snd]. repeat split; auto. unfold place; cbn. apply Rmult_lt_compat_r; [lra|]. apply lt_INR; auto. }
  destruct (fold_aset (fun ac => arrow_path it pos (g_edges (og_graph (pf_og f))) (fst ac)) fst (fun (ac : arrow * color) p => (p, snd ac)) (flow_arrows it f) AN)
    with (acc := @nil (arrow * (list point * color))) as (aps & Eap & Fap).
  { intros [a c] I. destruct (AA a c I) as (p & q & path & s & _ & _ & A & _). eauto. }
  { intros x _ []. }
  unfold arrow_paths. cbn [app] in Eap. rewrite Eap. cbn [rbind].
  destruct (strokes_spec aps) as (ss & Ess & Fss).
  { intros a p c I. destruct (Forall2_In_r _ _ _ _ Fap I) as ([a' c'] & I' & p' & Ep & E). cbn in E, Ep. injection E as -> -> ->.
    destruct (AA _ _ I') as (? & ? & path & s & _ & _ & A & B & _). rewrite A in Ep. injection Ep as ->. eauto. }
  rewrite Ess. cbn [rbind]. exists pos, es, ss. split; auto.
  assert (Mss : map fst ss = map fst (flow_arrows it f)).
  { transitivity (map fst aps).
    - symmetry. eapply Forall2_map_eq; [|exact Fss]. intros x y (E & _); symmetry; exact E.
    - symmetry. eapply Forall2_map_eq; [|exact Fap]. intros ? ? (? & _ & ->); reflexivity. }
  split; [exact Pn|]. split; [|split; [|split; [|split; [|split; [|split]]]]].
  - intros u v p Eu Ev. destruct (Nat.eq_dec u v) as [|N]; auto. exfalso. apply (NE p p); [exact (FarP u v p p Eu Ev N)|reflexivity].
  - intros n i Hi. destruct (Dl n i Hi) as (y & Ey). rewrite SC, Ey. cbn. eexists; reflexivity.
  - symmetry. rewrite <- (map_id (g_edges (og_graph (pf_og f)))) at 1.
    eapply Forall2_map_eq; [|exact Fes]. intros ? ? (? & _ & ->); reflexivity.
  - intros u v path I. destruct (Forall2_In_r _ _ _ _ Fes I) as (e & Ie & p' & Eg & E). injection E as <- <-.
    destruct (EE _ Ie) as (p & q & path' & A & B & Eg' & F). rewrite Eg in Eg'. injection Eg' as <-. eauto.
  - rewrite Mss; auto.
  - intros u v. rewrite Mss, in_map_iff. unfold corrects. split.
    + intros ([a c] & E & I). cbn in E; subst a. apply AI in I. tauto.
    + intros H. exists ((u, v), FLOW_C). split; auto. apply AI; auto.
  - intros u v s c I. destruct (Forall2_In_r _ _ _ _ Fss I) as ([a [p c']] & Ia & E1 & E2 & E3). cbn in E1, E2, E3. subst a c'.
    destruct (Forall2_In_r _ _ _ _ Fap Ia) as ([a' c'] & I' & p' & Ep & E). cbn in E, Ep. injection E as <- -> ->.
    destruct (AA _ _ I') as (pu & pv & path & s' & Pu & Pv & A & B & Sh & L & Y). rewrite A in Ep. injection Ep as ->.
    rewrite E3 in B. injection B as <-. split; [|exists pu, pv; auto 10].
    apply AI in I' as [-> _]. auto.
Qed.
Print Assumptions C60_drawing.
(** the line 0 - 1 - 2 drawn with the default distances *)
Example line_drawing a b : exists pos es ss, draw_causal_flow elems 3 (1, 1) (line_cf a b) = Ok (pos, es, ss) /\ length es = 2%nat /\
  forall u v, In (u, v) (map fst ss) <-> (u, v) = (0, 1)%nat \/ (u, v) = (1, 2)%nat.
Proof.
  assert (OK : og_ok (pf_og (line_cf a b))) by apply line_ok.
  assert (ND : NoDup (dkeys (pf_cf (line_cf a b)))) by (cbn; repeat constructor; cbn; intuition discriminate).
  assert (IE : iter_ok elems) by (intros s; reflexivity).
  destruct (C42_causal_flow_check_decides elems (line_cf a b) IE OK ND (line_cf_planar a b)) as [[_ CF]|[E _]].
  2:{ destruct (line_cf_ok a b) as (E' & _). rewrite E' in E. discriminate. }
  destruct (C60_drawing elems (line_cf a b) 3 (1, 1) IE OK) as (pos & es & ss & E & _ & _ & _ & Me & _ & _ & Ms & _); auto; cbn [fst snd]; try lra.
  { apply line_ok. }
  exists pos, es, ss. split; auto. split; [rewrite <- (map_length fst), Me; reflexivity|].
  intros u v. rewrite Ms. unfold corrects. split.
  - intros (s & Es & M). unfold line_cf in Es. cbn [pf_cf] in Es. destruct u as [|[|u]]; cbn in Es; try discriminate; injection Es as <-;
      rewrite mem_sing in M; apply Nat.eqb_eq in M; subst; auto.
  - intros [[= -> ->]|[= -> ->]]; [exists (sing 1)|exists (sing 2)]; split; reflexivity.
Qed.

(** arrows between nodes placed by any layout (Pauli flows, XZ-corrections): when
    the two nodes are at least 0.2 apart the arrow is drawn, from the one to the
    other *)
Theorem C60_arrow : forall it pos edges u v p q, iter_ok it -> dget pos u = Some p -> dget pos v = Some q -> u <> v ->
  2 / 10 <= pnorm (psub p q) -> exists path s, arrow_path it pos edges (u, v) = Ok path /\ arrow_stroke (u, v) path = Ok s /\ shows p q s.
Proof. intros it pos edges u v p q Hit Pu Pv N Far. exact (arrow_path_spec it pos edges (u, v) p q Hit Pu Pv N Far). Qed.
Print Assumptions C60_arrow.
(** the arrow of a node that corrects itself leaves it at distance 0.2 and comes
    back at distance 0.17 *)
Theorem C60_self_loop : forall it pos edges u p, dget pos u = Some p ->
  exists path, arrow_path it pos edges (u, u) = Ok path /\ arrow_stroke (u, u) path = Ok (Curve path) /\
  pnorm (psub (bezier_curve path 0) p) = 2 / 10 /\ pnorm (psub (bezier_curve path 1) p) = 17 / 100.
Proof.
  intros it pos edges u p Pu. unfold arrow_path. cbn [fst snd]. rewrite Pu. cbn [of_opt rbind]. rewrite Nat.eqb_refl.
  eexists; split; [reflexivity|]. unfold arrow_stroke. cbn [length fst snd self_loop_path Nat.eqb]. rewrite Nat.eqb_refl. split; [reflexivity|].
  assert (K : forall d g, 0 <= d -> pnorm (psub (point_from_node p d g) p) = d).
  { intros d g D. unfold pnorm, pdot, psub, point_from_node; cbn [fst snd]. set (x := g * PI / 180).
    transitivity (sqrt (Rsqr d * (Rsqr (sin x) + Rsqr (cos x)))); [f_equal; unfold Rsqr; ring|]. rewrite sin2_cos2, Rmult_1_r. apply sqrt_Rsqr; auto. }
  rewrite bezier_start, bezier_end by discriminate. unfold self_loop_path. cbn [hd last]. rewrite !K by lra. lra.
Qed.
Print Assumptions C60_self_loop.

(** the last point of a curve is moved back by 0.2, on the same line *)
Theorem C60_shorten : forall path s q, s <> q -> exists e, shorten_path (path ++ [s; q]) = Ok (path ++ [s; e]) /\
  pnorm (psub q e) = 2 / 10 /\ cross2d (psub q s) (psub e s) = 0 /\
  (2 / 10 <= pnorm (psub s q) -> pnorm (psub e s) = pnorm (psub s q) - 2 / 10).
Proof. intros path s q N. apply (shorten_spec _ path s q eq_refl N). Qed.
Print Assumptions C60_shorten.

(** with [node_distance] below 0.2 drawing a flow raises IndexError: the start of
    the arrow is merged with its end, and nothing is left to shorten *)
Definition pair_cf (a : R) : pflow :=
  PF (OG (Graph [0; 1]%nat [(0, 1)]%nat) [0%nat] [1%nat] [(0%nat, MBloch a PXY)] []) [(0%nat, sing 1)] [sing 1; sing 0].
Theorem C60_distance_refuted : forall a, cf_check elems (pair_cf a) = Ok tt /\ draw_causal_flow elems 2 (1 / 10, 1) (pair_cf a) = Err EIndex.
Proof.
  intros a. split; [vm_compute; auto|]. unfold draw_causal_flow.
  replace (cf_positions elems 2 (pair_cf a)) with (Ok [(0, (0, 0)); (1, (1, 0))]%nat) by reflexivity. cbn [rbind map fst snd].
  set (p0 := (0, 0) : point). set (p1 := (1 / 10, 0) : point).
  assert (EP : scale_positions (1 / 10, 1) [(0%nat, to_point (0, 0)%nat); (1%nat, to_point (1, 0)%nat)] = [(0%nat, p0); (1%nat, p1)]).
  { unfold scale_positions. cbn [fst snd]. destruct (Req_EM_T (1 / 10) 1) as [E|_]; [lra|]. 
    assert (A0 : ((INR 0 * (1 / 10))%R, (INR 0 * 1)%R) = p0) by (unfold p0; cbn [INR]; f_equal; ring).
    assert (A1 : ((INR 1 * (1 / 10))%R, (INR 0 * 1)%R) = p1) by (unfold p1; cbn [INR]; f_equal; ring).
    unfold to_point. cbn [map fst snd]. rewrite A0, A1. reflexivity. }
  rewrite EP. clear EP. set (pos := [(0%nat, p0); (1%nat, p1)]).
  assert (SQ : sqrt (1 / 10 * (1 / 10)) = 1 / 10) by (apply sqrt_square; lra).
  assert (N01 : pnorm (psub p0 p1) = 1 / 10).
  { unfold pnorm, pdot, psub, p0, p1; cbn [fst snd]. etransitivity; [|exact SQ]. f_equal; field. }
  assert (NEAR : Rltb (pnorm (psub p0 p1)) (2 / 10) = true) by (rewrite N01; apply Rltb_spec; lra).
  (* every path is first checked; only its two ends can be left *)
  assert (FB : forall path, path = [p0; p1] \/ (exists k, merge_first path = Some ([p0; p1], k)) ->
    find_bezier_path elems (0, 1)%nat path pos = Ok [p1]).
  { intros path H. unfold find_bezier_path.
    assert (BL : bezier_loop elems (0, 1)%nat pos 5 1 (of_list (dkeys pos)) path = Ok path).
    { cbn [bezier_loop]. 
      assert (SP : forall fi la di l i st, elems (fst st) = [0; 1]%nat -> scan_path elems (0, 1)%nat pos fi la di i l st = Ok st).
      { intros fi la di. induction l as [|x l IH]; intros i st Es; cbn [scan_path]; auto. destruct l as [|y l]; auto. rewrite Es. cbn [rfold].
        unfold scan_node at 1 2. cbn [fst snd Nat.eqb orb rbind]. apply IH; auto. }
      rewrite SP by reflexivity. reflexivity. }
    rewrite BL. cbn [rbind dget pos fst snd Nat.eqb of_opt]. unfold check_path.
    assert (CL : check_loop (length path) 0 path = Ok [p0; p1]).
    { destruct H as [->|(k & M)]; [reflexivity|]. destruct path as [|x path]; [discriminate|]. cbn [length check_loop]. cbn [Nat.ltb Nat.leb]. rewrite M.
      destruct path as [|y path]; [discriminate|]. destruct (length (y :: path)) eqn:L; [discriminate|]. cbn [check_loop merge_first]. destruct (100 <? 0 + k)%nat; auto. }
    rewrite CL. cbn [rbind removelast fold_left]. rewrite NEAR. cbn [premove]. rewrite peqb_refl. reflexivity. }
  change (g_edges (og_graph (pf_og (pair_cf a)))) with [(0, 1)%nat].
  assert (E1 : edge_paths elems pos [(0, 1)%nat] = Ok [((0, 1)%nat, [p1])]).
  { unfold edge_paths. cbn [rfold fst snd dget pos Nat.eqb of_opt rbind]. fold pos. rewrite FB; auto. }
  rewrite E1. cbn [rbind]. change (flow_arrows elems (pair_cf a)) with [((0, 1)%nat, FLOW_C)].
  assert (E2 : arrow_path elems pos [(0, 1)%nat] (0, 1)%nat = Ok [p1]).
  { unfold arrow_path. cbn [fst snd dget pos Nat.eqb of_opt rbind existsb edge_eqb andb orb]. fold pos.
    set (mid := (1 / 2 * (fst p0 + fst p1), 1 / 2 * (snd p0 + snd p1)) : point).
    assert (I : edge_intersects_node p0 p1 mid (5 / 100) = true).
    { apply C60_near. split; [intros [= E]; lra|]. exists (1 / 2). split; [lra|]. unfold mid, p0, p1, pdot, psub, padd, pscale; cbn [fst snd]. split; [field|].
      apply pnorm_lt; [lra|]. unfold pdot; cbn [fst snd]. lra. }
    rewrite I.
    assert (CP : control_point p0 p1 mid (2 / 10) = Ok (1 / 20, 1 / 5)).
    { unfold control_point. assert (C : Rltb 0 (cross2d (psub p1 p0) (psub mid p0)) = false).
      { apply Bool.not_true_iff_false. rewrite Rltb_spec. unfold cross2d, psub, mid, p0, p1; cbn [fst snd]. lra. }
      rewrite C. assert (ND : pnorm (- snd (psub p1 p0), fst (psub p1 p0)) = 1 / 10).
      { unfold pnorm, pdot, psub, p0, p1; cbn [fst snd]. etransitivity; [|exact SQ]. f_equal; field. }
      cbn zeta. rewrite ND. destruct (Reqb (1 / 10) 0) eqn:Z; [apply Reqb_spec in Z; lra|].
      unfold mid, padd, pscale, psub, p0, p1; cbn [fst snd]. f_equal. f_equal; field. }
    rewrite CP. cbn [rbind].
    assert (M : merge_first [p0; (1 / 20, 1 / 5); p1] = Some ([p0; p1], 0%nat)).
    { cbn [merge_first]. set (v1 := psub (1 / 20, 1 / 5) p0). set (v2 := psub p1 (1 / 20, 1 / 5)).
      assert (Z1 : peqb v1 (0, 0) = false). { apply Bool.not_true_iff_false. rewrite peqb_spec. unfold v1, psub, p0; cbn [fst snd]. intros [= E _]. lra. }
      assert (Z2 : peqb v2 (0, 0) = false). { apply Bool.not_true_iff_false. rewrite peqb_spec. unfold v2, psub, p1; cbn [fst snd]. intros [= E _]. lra. }
      rewrite Z1, Z2. cbn [orb].
      assert (T : Rltb (pdot v1 v2 / (pnorm v1 * pnorm v2)) (cos (3 * PI / 4)) = true).
      { apply Rltb_spec. assert (Nv : pnorm v2 = pnorm v1) by (unfold v1, v2, pnorm, pdot, psub, p0, p1; cbn [fst snd]; f_equal; field).
        rewrite Nv, pnorm_sq. replace (3 * PI / 4) with (3 * (PI / 4)) by field. rewrite cos_3PI4.
        replace (pdot v1 v2 / pdot v1 v1) with (- (15 / 17)) by (unfold v1, v2, pdot, psub, p0, p1; cbn [fst snd]; field).
        assert (S2 : 0 < sqrt 2) by (apply sqrt_lt_R0; lra). assert (Q2 : sqrt 2 * sqrt 2 = 2) by (apply sqrt_sqrt; lra).
        assert (B : 17 / 15 < sqrt 2) by nra.
        assert (/ sqrt 2 < 15 / 17). { replace (15 / 17) with (/ (17 / 15)) by field. apply Rinv_lt_contravar; [|auto]. apply Rmult_lt_0_compat; lra. }
        unfold Rdiv at 2. lra. }
      rewrite T. reflexivity. }
    apply FB; right; eauto. }
  unfold arrow_paths. cbn [rfold fst snd]. rewrite E2. reflexivity.
Qed.
Print Assumptions C60_distance_refuted.
