(** Property theorems: noise models (C34). *)
From Coq Require Import Reals Lra Arith List Bool Lia Permutation.
From Verif Require Import Cplx NSet Measure Pattern Noise.
Import ListNotations.

(** the commands are kept, in order, and only noise is inserted *)
Theorem C34_only_inserts : forall m l out, nm_transpile m l = Ok out -> inserts l out.
Proof.
  intros m l out H. rewrite nm_transpile_spec in H. unfold spec_seq in H. destruct (_ && _); [discriminate|]. injection H as <-. apply inserts_around.
Qed.
Print Assumptions C34_only_inserts.
Theorem C34_commands_kept : forall m p given out, noisy_seq m p given = Ok out -> strip out = p_seq p.
Proof.
  intros m p given out H. unfold noisy_seq in H. destruct (nm_transpile m (map NC (p_seq p))) as [s|] eqn:E; [|discriminate]. injection H as <-.
  rewrite strip_app, (inserts_strip _ _ (C34_only_inserts _ _ _ E)), strip_map.
  assert (S : strip (nm_input m (p_in p)) = []).
  { clear. induction m as [|p'|p'|ms IH] using nmodel_ind'; cbn [nm_input]; auto; [induction (p_in p); auto|induction (p_in p); auto|].
    induction IH; cbn [flat_map]; auto. rewrite strip_app, H, IHIH. auto. }
  destruct given; [rewrite S|]; auto.
Qed.
Print Assumptions C34_commands_kept.
(** transpilation fails only on signal commands, and only for a model that has
    a depolarising or damping component *)
Theorem C34_error : forall m l e, nm_transpile m l = Err e <->
  e = EValue /\ leaves m <> [] /\ exists n d, In (NC (CS n d)) l.
Proof.
  intros m l e. rewrite nm_transpile_spec. unfold spec_seq.
  assert (HS : has_S l = true <-> exists n d, In (NC (CS n d)) l).
  { unfold has_S. rewrite existsb_exists. split.
    - intros (c & H & E). destruct c as [[]|]; try discriminate. eauto.
    - intros (n & d & H). exists (NC (CS n d)). auto. }
  destruct (has_S l) eqn:E; [destruct (leaves m) eqn:L|]; simpl; split.
  - discriminate.
  - intros (_ & H & _). congruence.
  - intros H. injection H as <-. repeat split; try discriminate. apply HS; auto.
  - intros (-> & _); auto.
  - discriminate.
  - intros (_ & _ & H). apply HS in H. discriminate.
Qed.
Print Assumptions C34_error.
(** every component contributes: around each command, the noise of the
    components that precedes it in the order of the components, then the
    command, then the noise that follows it, in the reverse order *)
Theorem C34_components : forall m l, has_S l = false ->
  nm_transpile m l = Ok (flat_map (fun c => flat_map (fun lf => before lf c) (leaves m) ++ c :: flat_map (fun lf => after lf c) (rev (leaves m))) l).
Proof. intros m l H. rewrite nm_transpile_spec. unfold spec_seq. rewrite H. reflexivity. Qed.
Print Assumptions C34_components.
Theorem C34_input_components : forall m nodes,
  nm_input m nodes = flat_map (fun lf => map (fun n => NA (AN (one lf np_prepare) [n] None)) nodes) (leaves m).
Proof.
  intros m nodes. induction m as [|p'|p'|ms IH] using nmodel_ind'; cbn [nm_input leaves flat_map]; rewrite ?app_nil_r; auto.
  induction IH; cbn [flat_map]; auto. rewrite flat_map_app, H, IHIH. auto.
Qed.
Print Assumptions C34_input_components.
(** in a runnable pattern each inserted noise acts on nodes alive at that point,
    as many as the noise acts on, and its condition only uses outcomes already
    measured *)
Theorem C34_live : forall m p given out pre a post,
  runnable (p_in p) (p_seq p) -> noisy_seq m p given = Ok out -> out = pre ++ NA a :: post ->
  (forall n, In n (an_nodes a) -> live (p_in p) (strip pre) n) /\
  length (an_nodes a) = noise_nqubits (an_noise a) /\
  (forall d k, an_dom a = Some d -> In k (elems d) -> measured_in (strip pre) k).
Proof.
  intros m p given out pre a post HR H E. unfold noisy_seq in H.
  destruct (nm_transpile m (map NC (p_seq p))) as [s|] eqn:T; [|discriminate]. injection H as H. symmetry in H.
  rewrite nm_transpile_spec in T. unfold spec_seq in T. destruct (_ && _); [discriminate|]. injection T as T. subst s.
  assert (INP : forall pre post, nm_input m (p_in p) = pre ++ NA a :: post ->
    (forall n, In n (an_nodes a) -> live (p_in p) (strip pre) n) /\ length (an_nodes a) = noise_nqubits (an_noise a) /\ an_dom a = None).
  { intros pre0 post0 E0. assert (I : In (NA a) (nm_input m (p_in p))) by (rewrite E0; apply in_or_app; simpl; auto).
    assert (S0 : strip (nm_input m (p_in p)) = []).
    { rewrite C34_input_components. apply strip_NA, flat_NA. intros lf. rewrite forallb_forall. intros x Hx. apply in_map_iff in Hx as (? & <- & _). auto. }
    assert (S : strip pre0 = []) by (rewrite E0, strip_app in S0; destruct (strip pre0); auto; discriminate).
    rewrite C34_input_components in I. apply in_flat_map in I as (lf & _ & I). apply in_map_iff in I as (n & EA & I). injection EA as <-. rewrite S. cbn.
    split; [|unfold one; destruct (fst lf); auto].
    intros n' [<-|[]]. split; auto. intros (? & ? & ? & []). }
  assert (BODY : forall pre post, flat_map (around (leaves m)) (map NC (p_seq p)) = pre ++ NA a :: post ->
    (forall n, In n (an_nodes a) -> live (p_in p) (strip pre) n) /\ length (an_nodes a) = noise_nqubits (an_noise a) /\
    (forall d k, an_dom a = Some d -> In k (elems d) -> measured_in (strip pre) k)).
  { intros pre0 post0 E0. destruct (spec_place _ _ _ _ _ E0) as (pp & c & q & EQ & HH).
    assert (OK : cmd_ok (p_in p) pp c) by (eapply HR; eauto).
    assert (Lmid : forall n, live (p_in p) pp n -> (forall m0 s0 t0, c <> CM n m0 s0 t0) -> live (p_in p) (pp ++ [c]) n).
    { intros n [L1 L2] NM. split; [destruct L1; auto; right; apply prepared_app; auto|]. rewrite measured_app, measured_one. intros [K|(? & ? & ? & K)]; [auto|].
      eapply NM; eauto. }
    destruct HH as [[I S]|[I S]]; rewrite S; apply in_flat_map in I as (lf & _ & I).
    - destruct c; simpl in I; try tauto. destruct I as [I|[]]. injection I as <-. cbn. split; [|split; [unfold one; destruct (fst lf); auto|discriminate]].
      intros n' [<-|[]]. apply OK.
    - destruct c; simpl in I; try tauto; destruct I as [I|[]]; injection I as <-; cbn.
      + split; [|split; [unfold one; destruct (fst lf); auto|discriminate]]. intros n' [<-|[]]. cbn in OK. destruct OK as [K1 K2].
        split; [right; apply prepared_app; right; apply prepared_one; eauto|]. rewrite measured_app, measured_one. intros [K|(? & ? & ? & K)]; [|discriminate].
        destruct K as (m0 & s0 & t0 & K). apply in_split in K as (a0 & b0 & ->). rewrite <- app_assoc in EQ. cbn in EQ.
        destruct (HR _ _ _ EQ) as [[[L|L] _] _]; [tauto|]. apply K2, prepared_app. auto.
      + split; [|split; [unfold two; destruct (fst lf); auto|discriminate]]. cbn in OK. intros n' [<-|[<-|[]]]; apply Lmid; try tauto; discriminate.
      + cbn in OK. split; [|split; [unfold one; destruct (fst lf); auto|]].
        * intros n' [<-|[]]. apply Lmid; try tauto; discriminate.
        * intros d' k Ed Hk. injection Ed as <-. apply measured_app. left. apply OK. apply elems_spec; auto.
      + cbn in OK. split; [|split; [unfold one; destruct (fst lf); auto|]].
        * intros n' [<-|[]]. apply Lmid; try tauto; discriminate.
        * intros d' k Ed Hk. injection Ed as <-. apply measured_app. left. apply OK. apply elems_spec; auto. }
  rewrite E in H. destruct given; [|apply (BODY pre post); symmetry; auto].
  destruct (app_eq_app' _ _ _ _ (eq_sym H)) as (l & [[E1 E2]|[E1 E2]]).
  - destruct l as [|x l].
    + simpl in E2. destruct (BODY [] post (eq_sym E2)) as (B1 & B2 & B3). rewrite app_nil_r in E1.
      assert (S0 : strip (nm_input m (p_in p)) = []).
      { rewrite C34_input_components. apply strip_NA, flat_NA. intros lf. rewrite forallb_forall. intros x Hx. apply in_map_iff in Hx as (? & <- & _). auto. }
      rewrite <- E1, S0. auto.
    + injection E2 as <- E2. destruct (INP pre l E1) as (B1 & B2 & B3). repeat split; auto; [apply B1; auto|apply B1; auto|]. rewrite B3. discriminate.
  - destruct (BODY l post E2) as (B1 & B2 & B3).
    assert (S0 : strip (nm_input m (p_in p)) = []).
    { rewrite C34_input_components. apply strip_NA, flat_NA. intros lf. rewrite forallb_forall. intros x Hx. apply in_map_iff in Hx as (? & <- & _). auto. }
    rewrite E1, strip_app, S0. auto.
Qed.
Print Assumptions C34_live.
(** the outcome reported is the measured one flipped once for every component
    whose draw is below its measure_error_prob; one draw per component *)
Theorem C34_confuse : forall u m r k,
  nm_confuse u m (r, k) =
  (xorb r (fold_right xorb false (map (fun i => if Rlt_dec (u (k + i)%nat) (np_merr (snd (nth i (leaves m) (true, NP 0 0 0 0 0 0)))) then true else false)
                                  (seq 0 (length (leaves m))))), k + length (leaves m)).
Proof.
  intros u m r k. rewrite nm_confuse_spec. f_equal. f_equal. generalize (leaves m). intros ls. revert k. induction ls as [|lf ls IH]; intros k; auto.
  cbn [flips length seq map fold_right nth]. rewrite Nat.add_0_r. f_equal. rewrite IH. rewrite <- seq_shift, map_map. f_equal. apply map_ext.
  intros i. cbn [nth]. replace (k + S i) with (S k + i) by lia. reflexivity.
Qed.
Print Assumptions C34_confuse.
(** with probability zero (one) the outcome is never (always) flipped by a
    component, the draws being in [0, 1) *)
Theorem C34_confuse_extreme : forall u m r k, (forall i, (0 <= u i < 1)%R) ->
  ((forall lf, In lf (leaves m) -> np_merr (snd lf) = 0%R) -> fst (nm_confuse u m (r, k)) = r) /\
  ((forall lf, In lf (leaves m) -> np_merr (snd lf) = 1%R) -> fst (nm_confuse u m (r, k)) = xorb r (Nat.odd (length (leaves m)))).
Proof.
  intros u m r k U. rewrite nm_confuse_spec. cbn [fst]. generalize (leaves m). intros ls. split; intros H.
  - assert (flips u ls k = false) as ->; [|apply xorb_false_r]. revert k. induction ls as [|lf ls IH]; intros k; auto. cbn [flips].
    rewrite H by (simpl; auto). specialize (U k). destruct (Rlt_dec _ _); [lra|]. rewrite IH; auto. intros; apply H; simpl; auto.
  - f_equal. revert k. induction ls as [|lf ls IH]; intros k; auto. cbn [flips length].
    rewrite H by (simpl; auto). pose proof (U k). destruct (Rlt_dec _ _); [|lra]. rewrite IH by (intros; apply H; simpl; auto). rewrite Nat.odd_succ, <- Nat.negb_odd. auto.
Qed.
Print Assumptions C34_confuse_extreme.
(** a model without noise component changes nothing *)
Theorem C34_noiseless : forall m p given, leaves m = [] -> noisy_seq m p given = Ok (map NC (p_seq p)).
Proof.
  intros m p given H. unfold noisy_seq. rewrite nm_transpile_spec, C34_input_components, H. unfold spec_seq. rewrite andb_false_r. simpl.
  assert (flat_map (around []) (map NC (p_seq p)) = map NC (p_seq p)) as -> by (induction (p_seq p); simpl; congruence). destruct given; auto.
Qed.
Print Assumptions C34_noiseless.

(** a composed model with nesting, on a pattern with all kinds of commands *)
Example C34_case : forall P Q m,
  let M := NMComp [NMDep P; NMComp [NMless; NMDamp Q]] in
  let p := Pat [0] [CN 1 SPlus; CE 0 1; CM 0 m sempty sempty; CX 1 (sing 0)] [1] 2 in
  runnable (p_in p) (p_seq p) /\
  noisy_seq M p true = Ok
   [NA (AN (Dep1 (np_prepare P)) [0] None); NA (AN (Damp1 (np_prepare Q)) [0] None);
    NC (CN 1 SPlus); NA (AN (Damp1 (np_prepare Q)) [1] None); NA (AN (Dep1 (np_prepare P)) [1] None);
    NC (CE 0 1); NA (AN (Damp2 (np_ent Q)) [0; 1] None); NA (AN (Dep2 (np_ent P)) [0; 1] None);
    NA (AN (Dep1 (np_mchan P)) [0] None); NA (AN (Damp1 (np_mchan Q)) [0] None); NC (CM 0 m sempty sempty);
    NC (CX 1 (sing 0)); NA (AN (Damp1 (np_x Q)) [1] (Some (sing 0))); NA (AN (Dep1 (np_x P)) [1] (Some (sing 0)))].
Proof. intros. split; [apply (check_runnability_spec p)|]; reflexivity. Qed.
