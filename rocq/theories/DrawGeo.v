(** Proofs about the geometry of the drawing: segments near a node, control
    points, paths and curves. *)
From Coq Require Import Reals Lra Arith List Bool Lia Permutation.
From Verif Require Import NSet Fundamentals Measure Pattern OpenGraph FlowSpec Flow Draw DrawThm.
Import ListNotations.
Local Open Scope R_scope.

Lemma Rltb_spec a b : Rltb a b = true <-> a < b.
Proof. unfold Rltb. destruct (Rlt_dec a b); split; auto; discriminate. Qed.
Lemma Reqb_spec a b : Reqb a b = true <-> a = b.
Proof. unfold Reqb. destruct (Req_EM_T a b); split; auto; discriminate. Qed.
Lemma peqb_spec p q : peqb p q = true <-> p = q.
Proof.
  unfold peqb. rewrite andb_true_iff, !Reqb_spec. destruct p, q; cbn. split; [intros [-> ->]; auto|intros [= -> ->]; auto].
Qed.
Lemma peqb_refl p : peqb p p = true. Proof. apply peqb_spec; auto. Qed.
Lemma pdot_pos p : 0 <= pdot p p.
Proof. unfold pdot. nra. Qed.
Lemma pdot_0 p : pdot p p = 0 -> p = (0, 0).
Proof. destruct p as [x y]; unfold pdot; cbn. intros H. f_equal; nra. Qed.
Lemma pnorm_sq p : pnorm p * pnorm p = pdot p p.
Proof. apply sqrt_sqrt, pdot_pos. Qed.
Lemma pnorm_pos p : 0 <= pnorm p. Proof. apply sqrt_pos. Qed.
Lemma pnorm_0 p : pnorm p = 0 -> p = (0, 0).
Proof. intros H. apply pdot_0. rewrite <- pnorm_sq, H. ring. Qed.
Lemma psub_0 p q : psub p q = (0, 0) -> p = q.
Proof. destruct p, q; unfold psub; cbn. intros [= A B]. f_equal; lra. Qed.
Lemma pnorm_scale k p : pnorm (pscale k p) = Rabs k * pnorm p.
Proof.
  unfold pnorm, pdot, pscale; cbn. rewrite <- (sqrt_Rsqr_abs k), <- sqrt_mult; [f_equal; unfold Rsqr; ring|apply Rle_0_sqr|nra].
Qed.
Lemma pnorm_lt p b : 0 <= b -> pnorm p < b <-> pdot p p < b * b.
Proof. intros B. rewrite <- pnorm_sq. pose proof (pnorm_pos p). split; intros; nra. Qed.

(** the foot of the perpendicular from [n] to the line through [s] and [e] *)
Lemma edge_intersects_spec s e n buffer :
  edge_intersects_node s e n buffer = true <->
  s <> e /\ exists t, 0 <= t <= 1 /\ let q := padd s (pscale t (psub e s)) in
    pdot (psub n q) (psub e s) = 0 /\ pnorm (psub q n) < buffer.
Proof.
  unfold edge_intersects_node. destruct (peqb s e) eqn:E; [apply peqb_spec in E; split; [discriminate|tauto]|].
  assert (N : s <> e) by (intros ->; rewrite peqb_refl in E; discriminate).
  set (lv := psub e s). assert (L : 0 < pdot lv lv).
  { pose proof (pdot_pos lv). destruct (Req_dec (pdot lv lv) 0) as [Z|Z]; [|lra]. apply pdot_0, psub_0 in Z. congruence. }
  set (t := pdot (psub n s) lv / pdot lv lv).
  assert (K : forall u, pdot (psub n (padd s (pscale u lv))) lv = 0 <-> u = t).
  { intros u. assert (F : pdot (psub n (padd s (pscale u lv))) lv = pdot (psub n s) lv - u * pdot lv lv).
    { unfold pdot, psub, padd, pscale; cbn. ring. }
    rewrite F. unfold t. split; intros H; [|rewrite H; field; lra].
    apply (Rmult_eq_reg_r (pdot lv lv)); [|lra]. unfold Rdiv. rewrite Rmult_assoc, Rinv_l; lra. }
  destruct (Rltb t 0 || Rltb 1 t) eqn:O.
  - split; [discriminate|]. intros (_ & u & U & P & _). apply K in P. subst u. apply orb_true_iff in O. rewrite !Rltb_spec in O. lra.
  - apply orb_false_iff in O as [O1 O2].
    assert (0 <= t) by (destruct (Rlt_le_dec t 0) as [X|X]; auto; apply Rltb_spec in X; congruence).
    assert (t <= 1) by (destruct (Rlt_le_dec 1 t) as [X|X]; auto; apply Rltb_spec in X; congruence).
    rewrite Rltb_spec. split; [intros H1; split; auto; exists t; split; [lra|]; cbn; split; auto; apply K; auto|].
    intros (_ & u & U & P & Q). apply K in P. subst u. auto.
Qed.

Lemma control_point_spec s e n dist : s <> e -> exists c, control_point s e n dist = Ok c /\
  (0 <= dist -> pnorm (psub c n) = dist) /\ pdot (psub c n) (psub e s) = 0 /\
  (0 < cross2d (psub e s) (psub n s) -> cross2d (psub e s) (psub c s) = cross2d (psub e s) (psub n s) - dist * pnorm (psub e s)) /\
  (cross2d (psub e s) (psub n s) <= 0 -> cross2d (psub e s) (psub c s) = cross2d (psub e s) (psub n s) + dist * pnorm (psub e s)).
Proof.
  intros N. unfold control_point. set (ev := psub e s).
  assert (Np : pnorm ev <> 0) by (intros Z; apply pnorm_0, psub_0 in Z; congruence).
  pose proof (pnorm_pos ev) as P0. pose proof (pnorm_sq ev) as SQ.
  assert (N1 : pnorm (snd ev, - fst ev) = pnorm ev) by (unfold pnorm, pdot; cbn; f_equal; ring).
  assert (N2 : pnorm (- snd ev, fst ev) = pnorm ev) by (unfold pnorm, pdot; cbn; f_equal; ring).
  assert (NE : Reqb (pnorm ev) 0 = false) by (apply Bool.not_true_iff_false; rewrite Reqb_spec; auto).
  assert (SUB : forall c p q, pnorm (psub (padd n (pscale c (pscale p q))) n) = Rabs (c * p) * pnorm q).
  { intros. rewrite <- pnorm_scale. f_equal. unfold psub, padd, pscale; cbn. f_equal; ring. }
  assert (INV : Rabs (/ pnorm ev) = / pnorm ev) by (apply Rabs_pos_eq; left; apply Rinv_0_lt_compat; lra).
  assert (SS : (fst ev * fst ev + snd ev * snd ev) / pnorm ev = pnorm ev).
  { change (pdot ev ev / pnorm ev = pnorm ev). rewrite <- SQ. field; auto. }
  destruct (Rltb 0 (cross2d ev (psub n s))) eqn:C.
  - apply Rltb_spec in C. rewrite N1, NE. eexists; split; [reflexivity|]. split; [|split; [|split]].
    + intros D. rewrite SUB, N1, Rabs_mult, INV, (Rabs_pos_eq dist) by auto. field; auto.
    + unfold pdot, psub, padd, pscale; cbn [fst snd]. fold (psub e s). unfold ev, psub; cbn [fst snd]. ring.
    + intros _. transitivity (cross2d ev (psub n s) - dist * ((fst ev * fst ev + snd ev * snd ev) / pnorm ev)); [|rewrite SS; auto].
      unfold cross2d, psub at 1 2, padd, pscale, Rdiv; cbn [fst snd]. unfold psub; cbn [fst snd]. ring.
    + lra.
  - assert (cross2d ev (psub n s) <= 0) by (destruct (Rlt_le_dec 0 (cross2d ev (psub n s))) as [X|X]; auto; apply Rltb_spec in X; congruence).
    rewrite N2, NE. eexists; split; [reflexivity|]. split; [|split; [|split]].
    + intros D. rewrite SUB, N2, Rabs_mult, INV, (Rabs_pos_eq dist) by auto. field; auto.
    + unfold pdot, psub, padd, pscale; cbn [fst snd]. fold (psub e s). unfold ev, psub; cbn [fst snd]. ring.
    + lra.
    + intros _. transitivity (cross2d ev (psub n s) + dist * ((fst ev * fst ev + snd ev * snd ev) / pnorm ev)); [|rewrite SS; auto].
      unfold cross2d, psub at 1 2, padd, pscale, Rdiv; cbn [fst snd]. unfold psub; cbn [fst snd]. ring.
Qed.

(** * Paths: the ends are kept *)
(** the path goes from [p] to [q] *)
Definition from_to (p q : point) (path : list point) : Prop := exists mid, path = p :: mid ++ [q].
Lemma from_to_len p q path : from_to p q path -> (2 <= length path)%nat.
Proof. intros (m & ->). cbn. rewrite app_length; cbn; lia. Qed.
Lemma merge_first_spec : forall path q k, merge_first path = Some (q, k) -> (length q < length path)%nat /\
  forall p r, from_to p r path -> from_to p r q.
Proof.
  assert (FT : forall a b c rest p r, from_to p r (a :: b :: c :: rest) -> p = a /\ exists m, c :: rest = m ++ [r]).
  { intros a b c rest p r (m & E). injection E as -> E. split; auto. destruct m as [|x m]; [discriminate|].
    injection E as -> E. eauto. }
  intros path. induction path as [|a tl IH]; intros q k; cbn [merge_first]; [discriminate|].
  destruct tl as [|b [|c rest]]; try discriminate.
  set (v1 := psub b a). set (v2 := psub c b).
  destruct (peqb v1 (0, 0) || peqb v2 (0, 0)).
  - intros [= <- <-]. split; [cbn; lia|]. intros p r H. apply FT in H as [-> (m & E)]. exists m. rewrite E; auto.
  - destruct (Rltb _ _).
    + destruct rest as [|d rest]; intros [= <- <-]; (split; [cbn; lia|]); intros p r H; apply FT in H as [-> (m & E)].
      * exists []. destruct m as [|x [|]]; [injection E as ->; auto|discriminate|discriminate].
      * destruct m as [|x m]; [discriminate|]. injection E as -> E. exists (pscale (/ 2) (padd b x) :: m). rewrite E; auto.
    + destruct (merge_first (b :: c :: rest)) as [[q' k']|] eqn:E; [|discriminate]. intros [= <- <-].
      destruct (IH q' k' eq_refl) as [L H]. split; [cbn in *; lia|]. intros p r HF. destruct (FT _ _ _ _ _ _ HF) as [-> (m & Em)].
      assert (F : from_to b r (b :: c :: rest)) by (exists m; rewrite Em; auto).
      apply H in F as (m' & ->). exists (b :: m'). auto.
Qed.
Lemma check_loop_spec fuel : forall i path, (length path <= fuel)%nat -> exists q, check_loop fuel i path = Ok q /\
  forall p r, from_to p r path -> from_to p r q.
Proof.
  induction fuel; intros i path L; cbn [check_loop].
  - destruct path; [|cbn in L; lia]. cbn [merge_first]. destruct (100 <? i)%nat; eauto.
  - destruct (100 <? i)%nat; eauto. destruct (merge_first path) as [[q k]|] eqn:E; eauto.
    apply merge_first_spec in E as [L' H]. destruct (IHfuel (i + k)%nat q ltac:(lia)) as (q' & R & H'). exists q'; split; auto.
Qed.
(** the last loop of _check_path removes the points near the target, except the end *)
Lemma removal_spec target l q :
  fold_left (fun l p => if Rltb (pnorm (psub p target)) (2 / 10) then premove p l else l) l (l ++ [q])
  = filter (fun p => negb (Rltb (pnorm (psub p target)) (2 / 10))) l ++ [q].
Proof.
  set (near := fun p => Rltb (pnorm (psub p target)) (2 / 10)).
  assert (PR : forall kept p rest, near p = true -> (forall x, In x kept -> near x = false) -> premove p (kept ++ p :: rest) = kept ++ rest).
  { intros kept p rest Hp. induction kept as [|x kept IH]; intros HK; cbn; [rewrite peqb_refl; auto|].
    destruct (peqb x p) eqn:E; [apply peqb_spec in E; subst; rewrite HK in Hp; [discriminate|left; auto]|].
    f_equal. apply IH. intros; apply HK; right; auto. }
  assert (G : forall l kept, (forall x, In x kept -> near x = false) ->
    fold_left (fun l p => if near p then premove p l else l) l (kept ++ l ++ [q]) = kept ++ filter (fun p => negb (near p)) l ++ [q]).
  { clear l. induction l as [|p l IH]; intros kept HK; cbn [fold_left filter app]; auto.
    destruct (near p) eqn:Np; cbn [negb].
    - rewrite PR; auto.
    - specialize (IH (kept ++ [p])). rewrite <- !app_assoc in IH. cbn [app] in IH. apply IH.
      intros x Hx. apply in_app_iff in Hx as [Hx|[<-|[]]]; auto. }
  apply (G l []). intros x [].
Qed.
Lemma check_path_spec p q path : from_to p q path -> exists r, check_path path q = Ok r /\
  (exists far, r = far ++ [q] /\ forall x, In x far -> 2 / 10 <= pnorm (psub x q)) /\
  (2 / 10 <= pnorm (psub p q) -> from_to p q r).
Proof.
  intros F. unfold check_path. destruct (check_loop_spec (length path) 0 path (Nat.le_refl _)) as (path' & R & H).
  rewrite R; cbn [rbind]. pose proof (H _ _ F) as (m & Em). rewrite Em. eexists; split; [reflexivity|].
  change (p :: m ++ [q]) with ((p :: m) ++ [q]). rewrite removelast_last, removal_spec. split.
  - eexists; split; [reflexivity|]. intros x Hx. apply filter_In in Hx as [_ Hx].
    apply negb_true_iff in Hx. destruct (Rlt_le_dec (pnorm (psub x q)) (2 / 10)) as [X|X]; auto. apply Rltb_spec in X; congruence.
  - intros D. cbn [filter]. assert (E : Rltb (pnorm (psub p q)) (2 / 10) = false).
    { apply Bool.not_true_iff_false. rewrite Rltb_spec. lra. }
    rewrite E. cbn. eexists; reflexivity.
Qed.

Lemma insert_all_spec : forall cs i path L p q, (length path = L + i)%nat -> (forall j c, In (j, c) cs -> (j + 2 <= L)%nat) ->
  from_to p q path -> from_to p q (insert_all i cs path).
Proof.
  induction cs as [|[j c] cs IH]; intros i path L p q LE B F; cbn [insert_all]; auto.
  pose proof (B j c (or_introl eq_refl)) as Bj.
  apply (IH (S i) _ L).
  - unfold insert_at. rewrite app_length; cbn. rewrite firstn_length, skipn_length. lia.
  - intros j' c' I. apply (B j' c'). right; auto.
  - destruct F as (m & ->). cbn in LE. rewrite app_length in LE. cbn in LE.
    unfold insert_at. replace (j + i + 1)%nat with (S (j + i)) by lia. cbn [firstn skipn].
    rewrite firstn_app, skipn_app. replace (j + i - length m)%nat with 0%nat by lia. cbn [firstn skipn].
    rewrite app_nil_r. exists (firstn (j + i) m ++ c :: skipn (j + i) m). cbn. rewrite <- app_assoc. auto.
Qed.

Section Bezier.
  Context (it : iter) (Hit : iter_ok it) (pos : dict point) (a : arrow) (p q : point).
  Context (Npq : p <> q).

  Lemma scan_node_spec dist i s e st n : (forall n, mem n (fst st) = true -> dget pos n <> None) -> dget pos n <> None ->
    exists st', scan_node a pos p q dist i s e st n = Ok st' /\ (forall n, mem n (fst st') = true -> mem n (fst st) = true) /\
      (forall j c, In (j, c) (snd st') -> In (j, c) (snd st) \/ j = i).
  Proof.
    intros D Dn. unfold scan_node. destruct ((n =? fst a)%nat || (n =? snd a)%nat); [eauto|].
    destruct (dget pos n) as [r|]; [|contradiction]. cbn [of_opt rbind].
    destruct (edge_intersects_node s e r (2 / 10)); [|eauto].
    destruct (control_point_spec p q r dist Npq) as (c & -> & _). cbn [rbind]. eexists; split; [reflexivity|]. cbn [fst snd]. split.
    - intros m. rewrite mem_sremove, andb_true_iff. tauto.
    - intros j c' I. apply in_app_iff in I as [I|[I|[]]]; auto. injection I as <- _; auto.
  Qed.
  Lemma scan_nodes_spec dist i s e : forall ns st, (forall n, mem n (fst st) = true -> dget pos n <> None) -> (forall n, In n ns -> dget pos n <> None) ->
    exists st', rfold (scan_node a pos p q dist i s e) ns st = Ok st' /\ (forall n, mem n (fst st') = true -> mem n (fst st) = true) /\
      (forall j c, In (j, c) (snd st') -> In (j, c) (snd st) \/ j = i).
  Proof.
    induction ns as [|n ns IH]; intros st D DN; cbn [rfold]; [exists st; auto|].
    destruct (scan_node_spec dist i s e st n D (DN n (or_introl eq_refl))) as (st1 & -> & M1 & C1).
    destruct (IH st1) as (st2 & -> & M2 & C2); auto.
    { intros m I. apply DN; right; auto. }
    exists st2. split; auto. split; auto. intros j c I. destruct (C2 j c I) as [H| ->]; auto.
  Qed.
  Lemma scan_path_spec dist : forall path i st, (forall n, mem n (fst st) = true -> dget pos n <> None) ->
    exists st', scan_path it a pos p q dist i path st = Ok st' /\ (forall n, mem n (fst st') = true -> mem n (fst st) = true) /\
      (forall j c, In (j, c) (snd st') -> In (j, c) (snd st) \/ (i <= j /\ j + 2 <= i + length path)%nat).
  Proof.
    induction path as [|s tl IH]; intros i st D; cbn [scan_path]; [exists st; auto|].
    destruct tl as [|e tl]; [exists st; auto|].
    destruct (scan_nodes_spec dist i s e (it (fst st)) st D) as (st1 & -> & M1 & C1).
    { intros n I. apply D. apply (iter_In it _ n Hit); auto. }
    cbn [rbind]. destruct (IH (S i) st1) as (st2 & -> & M2 & C2); auto.
    exists st2. split; auto. split; auto. intros j c I. destruct (C2 j c I) as [H|H]; [|right; cbn [length] in *; lia].
    destruct (C1 j c H) as [H'| ->]; auto. right. cbn [length]; lia.
  Qed.
  Lemma bezier_loop_spec : forall k i nodes path, (forall n, mem n nodes = true -> dget pos n <> None) -> from_to p q path ->
    exists path', bezier_loop it a pos k i nodes path = Ok path' /\ from_to p q path'.
  Proof.
    induction k; intros i nodes path D F; cbn [bezier_loop]; [eauto|].
    pose proof F as (m & E). assert (Hh : hd (0, 0) path = p) by (rewrite E; auto).
    assert (Hl : last path (0, 0) = q) by (rewrite E; change (p :: m ++ [q]) with ((p :: m) ++ [q]); apply last_last).
    rewrite Hh, Hl. destruct (scan_path_spec (6 / 10 / INR i) path 0 (nodes, []) D) as (st & -> & M & C). cbn [rbind].
    destruct (snd st) as [|c cs] eqn:Es; [eauto|].
    apply IHk; [intros n Hn; apply D; apply M in Hn; auto|].
    apply (insert_all_spec _ 0 path (length path)); auto. intros j c' I. rewrite <- Es in *. destruct (C j c' I) as [[]|H]. cbn in H; lia.
  Qed.
  Lemma find_bezier_spec path : dget pos (snd a) = Some q -> from_to p q path -> exists r, find_bezier_path it a path pos = Ok r /\
    (exists far, r = far ++ [q] /\ forall x, In x far -> 2 / 10 <= pnorm (psub x q)) /\
    (2 / 10 <= pnorm (psub p q) -> from_to p q r).
  Proof.
    intros Dq F. unfold find_bezier_path. destruct (bezier_loop_spec 5 1 (of_list (dkeys pos)) path) as (path' & -> & F'); auto.
    { intros n Hn. apply mem_of_list, dget_keys in Hn as (v & ->). discriminate. }
    cbn [rbind]. rewrite Dq. cbn [of_opt rbind]. eapply check_path_spec; eauto.
  Qed.
End Bezier.

(** * Curves *)
Lemma sum_single (f : nat -> R) n k : (k <= n)%nat -> (forall i, (i <= n)%nat -> i <> k -> f i = 0) -> sum_f_R0 f n = f k.
Proof.
  revert k. induction n; intros k L Z; cbn [sum_f_R0].
  - replace k with 0%nat by lia. auto.
  - destruct (Nat.eq_dec k (S n)) as [->|Ne].
    + rewrite (sum_eq _ (fun _ => 0)); [|intros i Hi; apply Z; lia]. rewrite sum_cte. ring.
    + rewrite (IHn k), (Z (S n)); [ring|lia|auto|lia|intros; apply Z; lia].
Qed.
Lemma C_n_0 n : Binomial.C n 0 = 1.
Proof. unfold Binomial.C. rewrite Nat.sub_0_r. cbn [fact INR]. field. apply INR_fact_neq_0. Qed.
Lemma C_n_n n : Binomial.C n n = 1.
Proof. unfold Binomial.C. rewrite Nat.sub_diag. cbn [fact INR]. field. apply INR_fact_neq_0. Qed.
Lemma C_pos n i : 0 <= Binomial.C n i.
Proof.
  unfold Binomial.C. apply Rmult_le_pos; [apply pos_INR|]. left. apply Rinv_0_lt_compat. apply Rmult_lt_0_compat; apply INR_fact_lt_0.
Qed.
Lemma bezier_start path : path <> [] -> bezier_curve path 0 = hd (0, 0) path.
Proof.
  intros N. destruct path as [|p path]; [congruence|]. unfold bezier_curve, bezier_coord. set (n := (length (p :: path) - 1)%nat).
  assert (Z : forall c : point -> R, sum_f_R0 (fun i => Binomial.C n i * (1 - 0) ^ (n - i) * 0 ^ i * c (nth i (p :: path) (0, 0))) n = c p).
  { intros c. rewrite (sum_single _ n 0); [|lia|].
    - rewrite C_n_0. cbn [nth pow]. rewrite Rminus_0_r, pow1. ring.
    - intros i Hi Ne. rewrite pow_i by lia. ring. }
  rewrite !Z. destruct p; auto.
Qed.
Lemma bezier_end path : path <> [] -> bezier_curve path 1 = last path (0, 0).
Proof.
  intros N. destruct (exists_last N) as (m & q & ->). rewrite last_last. unfold bezier_curve, bezier_coord.
  rewrite app_length; cbn [length]. replace (length m + 1 - 1)%nat with (length m) by lia. set (n := length m).
  assert (Z : forall c : point -> R, sum_f_R0 (fun i => Binomial.C n i * (1 - 1) ^ (n - i) * 1 ^ i * c (nth i (m ++ [q]) (0, 0))) n = c q).
  { intros c. rewrite (sum_single _ n n); [|lia|].
    - rewrite C_n_n, Nat.sub_diag, pow1. unfold n. rewrite app_nth2, Nat.sub_diag by lia. cbn. ring.
    - intros i Hi Ne. rewrite Rminus_diag_eq by auto. rewrite pow_i by lia. ring. }
  rewrite !Z. destruct q; auto.
Qed.
(** the curve lies in every half-plane that contains the points of its path *)
Lemma bezier_hull path t u v w : path <> [] -> 0 <= t <= 1 -> (forall p, In p path -> u * fst p + v * snd p <= w) ->
  u * fst (bezier_curve path t) + v * snd (bezier_curve path t) <= w.
Proof.
  intros N T H. unfold bezier_curve, bezier_coord; cbn [fst snd]. set (n := (length path - 1)%nat).
  assert (Ln : (n < length path)%nat) by (unfold n; destruct path; [congruence|cbn; lia]).
  rewrite !scal_sum, <- plus_sum.
  assert (W : sum_f_R0 (fun i => Binomial.C n i * t ^ i * (1 - t) ^ (n - i)) n = 1).
  { rewrite <- binomial. replace (t + (1 - t)) with 1 by ring. apply pow1. }
  apply Rle_trans with (w * sum_f_R0 (fun i => Binomial.C n i * t ^ i * (1 - t) ^ (n - i)) n); [|rewrite W; lra].
  rewrite scal_sum. apply sum_Rle. intros i Hi. change (@length point path - 1)%nat with n; change (@length (R * R) path - 1)%nat with n.
  assert (B : 0 <= Binomial.C n i * t ^ i * (1 - t) ^ (n - i)).
  { apply Rmult_le_pos; [apply Rmult_le_pos; [apply C_pos|]|]; apply pow_le; lra. }
  assert (I : In (nth i path (0, 0)) path) by (apply nth_In; lia). apply H in I.
  apply Rle_trans with ((Binomial.C n i * t ^ i * (1 - t) ^ (n - i)) * (u * fst (nth i path (0, 0)) + v * snd (nth i path (0, 0)))); [right; change (R * R)%type with point; generalize (@nth point i path (0, 0)); intros z; ring|].
  apply Rmult_le_compat_l; auto.
Qed.

Lemma shorten_spec path p s q : path = p ++ [s; q] -> s <> q -> exists e, shorten_path path = Ok (p ++ [s; e]) /\
  pnorm (psub q e) = 2 / 10 /\ cross2d (psub q s) (psub e s) = 0 /\
  (2 / 10 <= pnorm (psub s q) -> pnorm (psub e s) = pnorm (psub s q) - 2 / 10).
Proof.
  intros -> N. unfold shorten_path. rewrite rev_app_distr. cbn [rev app].
  assert (Np : pnorm (psub q s) <> 0) by (intros Z; apply pnorm_0, psub_0 in Z; congruence).
  pose proof (pnorm_pos (psub q s)) as P0.
  destruct (Reqb (pnorm (psub q s)) 0) eqn:E; [apply Reqb_spec in E; contradiction|].
  eexists; split.
  - cbn [rev]. rewrite rev_involutive, <- app_assoc. reflexivity.
  - set (v := psub q s) in *. set (k := pnorm v) in *. split; [|split].
    + assert (Eq : psub q (psub q (pscale (2 / 10) (pscale (/ k) v))) = pscale (2 / 10 * / k) v).
      { unfold psub, pscale; cbn. f_equal; ring. }
      rewrite Eq, pnorm_scale. fold k. rewrite Rabs_pos_eq; [field; auto|].
      apply Rmult_le_pos; [lra|]. left; apply Rinv_0_lt_compat; lra.
    + unfold v, cross2d, psub, pscale; cbn. ring.
    + intros L. assert (Kq : pnorm (psub s q) = k).
      { unfold k, v, pnorm, pdot, psub; cbn. f_equal. ring. }
      rewrite Kq in *.
      assert (Eq : psub (psub q (pscale (2 / 10) (pscale (/ k) v))) s = pscale (1 - 2 / 10 * / k) v).
      { unfold v, psub, pscale; cbn. f_equal; ring. }
      rewrite Eq, pnorm_scale. fold k. rewrite Rabs_pos_eq; [field; auto|].
      assert (2 / 10 * / k <= 1); [|lra]. apply (Rmult_le_reg_r k); [lra|]. rewrite Rmult_assoc, Rinv_l; lra.
Qed.
