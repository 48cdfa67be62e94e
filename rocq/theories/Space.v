(** Model of graphix/space_minimization.py (space-optimal placement of N and E
    commands, maximal space) and its correctness. *)
From Coq Require Import Reals Arith ZArith NArith List Bool Lia Permutation Setoid Morphisms.
From Verif Require Import Cplx Mat2 Fundamentals CliffordDb Clifford NSet Measure QState Pattern Layer Standardize.
Import ListNotations.

(** * The model *)
(** optimization.py:224-237 graph(): the node set; [for u, v in e_set] raises
    ValueError on a one-element frozenset *)
Definition sp_nodes (st : stdp) : nset :=
  of_list (sp_in st ++ map fst (sp_n st) ++ flat_map (fun e => [fst e; snd e]) (sp_e st)).
Definition has_loop (st : stdp) : bool := existsb (fun e => (fst e =? snd e)%nat) (sp_e st).
(** graph.neighbors(n), in some order that depends on the iteration order of the
    edge set: a parameter [nbs] of the model *)
Definition nbs_ok (st : stdp) (nbs : nat -> list nat) : Prop :=
  forall n, NoDup (nbs n) /\ forall k, In k (nbs n) <-> In (edge_norm (n, k)) (sp_e st).

(** space_minimization.py:118-122 ensure_active; [n_dict] keeps the last of
    several N commands on the same node *)
Definition ensure_active (st : stdp) (a : list cmd * nset) (n : nat) : res (list cmd * nset) :=
  if mem n (snd a) then Ok a else
  do s <- match dget (rev (sp_n st)) n with Some s => Ok s | None => Err EKey end;
  Ok (fst a ++ [CN n s], sadd n (snd a)).
(** space_minimization.py:124-130 ensure_neighborhood *)
Definition ensure_nb (st : stdp) (nbs : nat -> list nat) (done : nset) (a : list cmd * nset) (n : nat) : res (list cmd * nset) :=
  do a <- ensure_active st a n;
  if negb (mem n (sp_nodes st)) then Err ENetworkX else
  rfold (fun a k => if mem k done then Ok a else
           do a <- ensure_active st a k; Ok (fst a ++ [CE n k], snd a)) (nbs n) a.
(** space_minimization.py:132-135 the loop over the measurements; the state is
    (commands, initialized, done) *)
Definition sp_step_m (st : stdp) (nbs : nat -> list nat) (x : list cmd * nset * nset) (m : mcmd) : res (list cmd * nset * nset) :=
  let '(a, done) := x in
  do a <- ensure_nb st nbs done a (mc_node m);
  Ok (fst a ++ [mcmd_cmd m], snd a, sadd (mc_node m) done).
(** space_minimization.py:136-144 the loop over the output nodes.  A [Clifford]
    is an Enum member, hence always true *)
Definition out_cmds (st : stdp) (n : nat) : list cmd :=
  match dget_ne (sp_z st) n with Some d => [CZ n d] | None => [] end
  ++ match dget_ne (sp_x st) n with Some d => [CX n d] | None => [] end
  ++ match dget (sp_c st) n with Some c => [CC n c] | None => [] end.
Definition sp_step_out (st : stdp) (nbs : nat -> list nat) (x : list cmd * nset * nset) (n : nat) : res (list cmd * nset * nset) :=
  let '(a, done) := x in
  do a <- ensure_nb st nbs done a n;
  Ok (fst a ++ out_cmds st n, snd a, sadd n done).
(** space_minimization.py:95-146 standardized_to_space_optimal_pattern *)
Definition space_cmds (st : stdp) (nbs : nat -> list nat) : res (list cmd) :=
  if has_loop st then Err EValue else
  do x <- rfold (sp_step_m st nbs) (sp_m st) ([], of_list (sp_in st), sempty);
  do x <- rfold (sp_step_out st nbs) (sp_out st) x;
  Ok (fst (fst x)).
Definition space_opt (st : stdp) (nbs : nat -> list nat) : res pattern :=
  do l <- space_cmds st nbs;
  reorder_output_nodes (pat_extend (pat_new (sp_in st)) l) (sp_out st).

(** space_minimization.py:24-49 pattern_max_space: state (num_active, max_active) *)
Definition pms_step (x : Z * Z) (c : cmd) : Z * Z :=
  match c with
  | CN _ _ => (fst x + 1, Z.max (fst x + 1) (snd x))%Z
  | CM _ _ _ _ => (fst x - 1, snd x)%Z
  | _ => x
  end.
Definition pms (i : nat) (l : list cmd) : Z * Z := fold_left pms_step l (Z.of_nat i, Z.of_nat i).
Definition pattern_max_space (p : pattern) : Z := snd (pms (length (p_in p)) (p_seq p)).
(** space_minimization.py:73-79 activate, 81-85 activate_neighborhood: state
    (initialized, (num_active, max_active)) *)
Definition activate (x : nset * (Z * Z)) (n : nat) : nset * (Z * Z) :=
  if mem n (fst x) then x
  else (sadd n (fst x), (fst (snd x) + 1, Z.max (fst (snd x) + 1) (snd (snd x)))%Z).
Definition activate_nb (st : stdp) (nbs : nat -> list nat) (x : nset * (Z * Z)) (n : nat) : res (nset * (Z * Z)) :=
  let x := activate x n in
  if negb (mem n (sp_nodes st)) then Err ENetworkX else Ok (fold_left activate (nbs n) x).
(** space_minimization.py:52-92 standardized_pattern_max_space *)
Definition std_max_space (st : stdp) (nbs : nat -> list nat) : res Z :=
  if has_loop st then Err EValue else
  let i := Z.of_nat (length (sp_in st)) in
  do x <- rfold (fun x m => do x <- activate_nb st nbs x (mc_node m);
                   Ok (fst x, (fst (snd x) - 1, snd (snd x))%Z)) (sp_m st) (of_list (sp_in st), (i, i));
  do x <- rfold (activate_nb st nbs) (sp_out st) x;
  Ok (snd (snd x)).

(** * Correctness *)

Definition opsf := (nat -> bool) -> list op.
(** what has been emitted ([cmds], on nodes [init]) and what remains to be done:
    preparations [rn], edges [re], then [rest]; [D] lists the nodes measured *)
Record sinv (st : stdp) (base : opsf) (cmds : list cmd) (init : nset) (rn : list (nat * nstate)) (re : list (nat * nat))
    (rest : opsf) (D : list nat) : Prop := {
  s_sem : forall o, seq_ops o cmds ++ prep_ops rn ++ cz_ops re ++ rest o ≈ base o;
  s_run : runnable (sp_in st) cmds;
  s_init : forall n, mem n init = true <-> exists_node (sp_in st) cmds n;
  s_node : forall n, mem n init = true -> std_node st n;
  s_rnN : NoDup (map fst rn);
  s_rn : forall n, In n (map fst rn) -> mem n init = false;
  s_rn' : forall n, std_node st n -> mem n init = false -> In n (map fst rn);
  s_rnin : forall p, In p rn -> In p (sp_n st);
  s_reN : NoDup re;
  s_re : forall e, In e re -> In e (sp_e st);
  s_D : forall n, measured_in cmds n <-> In n D }.

Lemma in_perm {A} (a : A) l : In a l -> exists l', Permutation l (a :: l').
Proof. intros H. apply in_split in H. destruct H as (x & y & ->). exists (x ++ y). symmetry. apply Permutation_middle. Qed.
Lemma prep_ops_perm ns ns' : NoDup (map fst ns) -> Permutation ns ns' -> prep_ops ns ≈ prep_ops ns'.
Proof.
  intros H P. revert H. induction P; intros H; cbn [prep_ops map] in *.
  - reflexivity.
  - inversion H; subst. apply leq_cons, IHP; auto.
  - apply (leq_app_r [_; _] [_; _]). apply comm2. intros n [<-|[]] [E|[]]. inversion H as [|? ? K _]; subst. apply K. left; auto.
  - rewrite IHP1, IHP2; [reflexivity| |auto]. eapply Permutation_NoDup; [apply Permutation_map; eauto|auto].
Qed.
Lemma cz_ops_perm' es es' : Permutation es es' -> cz_ops es ≈ cz_ops es'.
Proof.
  intros P. apply leq_den. apply den_comm_perm; [apply Permutation_map; auto|].
  intros p q psi Hp Hq. apply in_map_iff in Hp, Hq. destruct Hp as (a & <- & _), Hq as (b & <- & _). apply cz_comm.
Qed.

Lemma seq_ops_snoc o l c : seq_ops o (l ++ [c]) = seq_ops o l ++ cmd_ops o c.
Proof. rewrite seq_ops_app. unfold seq_ops at 2. cbn [flat_map]. rewrite app_nil_r. auto. Qed.
Lemma exists_node_snoc inp l c n : exists_node inp (l ++ [c]) n <-> exists_node inp l n \/ exists s, c = CN n s.
Proof. unfold exists_node. rewrite prepared_app, prepared_one. tauto. Qed.
Lemma measured_snoc l c n : measured_in (l ++ [c]) n <-> measured_in l n \/ exists m s t, c = CM n m s t.
Proof. rewrite measured_app, measured_one. tauto. Qed.

Section Fix.
Variables (st : stdp) (base : opsf) (nbs : nat -> list nat).
Hypotheses (W : std_wf st) (NB : nbs_ok st nbs).

Lemma step_active cmds init rn re rest D n : sinv st base cmds init rn re rest D -> std_node st n ->
  exists cmds' init' rn', ensure_active st (cmds, init) n = Ok (cmds', init') /\ sinv st base cmds' init' rn' re rest D /\
    mem n init' = true /\ (forall k, mem k init = true -> mem k init' = true).
Proof.
  intros H Hn. unfold ensure_active. cbn [fst snd]. destruct (mem n init) eqn:E; [exists cmds, init, rn; auto|].
  pose proof (s_rn' _ _ _ _ _ _ _ _ H n Hn E) as I. apply in_map_iff in I. destruct I as ([n' s] & <- & I). cbn [fst] in *.
  destruct (in_perm _ _ I) as (rn' & P).
  assert (G : dget (rev (sp_n st)) n' = Some s).
  { apply In_dget; [unfold dkeys; rewrite map_rev; apply NoDup_rev, (sw_nN _ W)|]. apply -> in_rev. apply (s_rnin _ _ _ _ _ _ _ _ H); auto. }
  rewrite G. cbn [rbind]. eexists _, _, rn'. split; [reflexivity|]. split; [|split].
  - assert (NP : NoDup (map fst ((n', s) :: rn'))) by (eapply Permutation_NoDup; [apply Permutation_map; exact P|apply (s_rnN _ _ _ _ _ _ _ _ H)]).
    cbn [map fst] in NP. inversion NP as [|? ? NI ND]; subst.
    constructor.
    + intros o. rewrite <- (s_sem _ _ _ _ _ _ _ _ H o). rewrite (prep_ops_perm rn _ (s_rnN _ _ _ _ _ _ _ _ H) P).
      rewrite seq_ops_snoc, <- app_assoc. reflexivity.
    + apply runnable_snoc. split; [apply H|]. split.
      * intros K. assert (mem n' init = true) by (apply (s_init _ _ _ _ _ _ _ _ H); left; auto). congruence.
      * intros K. assert (mem n' init = true) by (apply (s_init _ _ _ _ _ _ _ _ H); right; auto). congruence.
    + intros k. rewrite mem_sadd, orb_true_iff, Nat.eqb_eq, (s_init _ _ _ _ _ _ _ _ H k), exists_node_snoc. split.
      * intros [->|K]; eauto.
      * intros [K|(s' & [= <- <-])]; auto.
    + intros k. rewrite mem_sadd, orb_true_iff, Nat.eqb_eq. intros [->|K]; auto. apply (s_node _ _ _ _ _ _ _ _ H); auto.
    + auto.
    + intros k K. rewrite mem_sadd. apply orb_false_intro.
      * apply Nat.eqb_neq. intros ->. auto.
      * apply (s_rn _ _ _ _ _ _ _ _ H). eapply Permutation_in; [apply Permutation_sym, Permutation_map; exact P|]. right; auto.
    + intros k K. rewrite mem_sadd, orb_false_iff, Nat.eqb_neq. intros [K1 K2].
      pose proof (s_rn' _ _ _ _ _ _ _ _ H k K K2) as Q. eapply Permutation_in in Q; [|apply Permutation_map; exact P]. destruct Q as [Q|Q]; auto. cbn in Q. congruence.
    + intros p Hp. apply (s_rnin _ _ _ _ _ _ _ _ H). eapply Permutation_in; [apply Permutation_sym; exact P|]. right; auto.
    + apply H.
    + apply H.
    + intros k. rewrite measured_snoc, (s_D _ _ _ _ _ _ _ _ H k). split; auto. intros [K|(? & ? & ? & K)]; auto. discriminate.
  - rewrite mem_sadd, Nat.eqb_refl. auto.
  - intros k K. rewrite mem_sadd, K. apply orb_true_r.
Qed.

Lemma rn_disj rn n : ~ In n (map fst rn) -> forall p, In p (prep_ops rn) -> In n (onodes p) -> False.
Proof. intros H p Hp Hn. apply H. eapply prep_onodes; eauto. Qed.
Lemma step_edge cmds init rn re rest D n k : sinv st base cmds init rn re rest D -> mem n init = true -> mem k init = true ->
  ~ In n D -> ~ In k D -> In (edge_norm (n, k)) re ->
  exists re', sinv st base (cmds ++ [CE n k]) init rn re' rest D /\ forall e, In e re' <-> In e re /\ e <> edge_norm (n, k).
Proof.
  intros H Hn Hk Dn Dk He. destruct (in_perm _ _ He) as (re' & P). exists re'.
  assert (NP : NoDup (edge_norm (n, k) :: re')) by (eapply Permutation_NoDup; [exact P|apply H]). inversion NP as [|? ? NI ND]; subst.
  assert (L : forall x, mem x init = true -> ~ In x D -> live (sp_in st) cmds x).
  { intros x X Y. split; [apply (s_init _ _ _ _ _ _ _ _ H); auto|]. rewrite (s_D _ _ _ _ _ _ _ _ H). auto. }
  split.
  - constructor; try apply H; auto.
    + intros o. rewrite <- (s_sem _ _ _ _ _ _ _ _ H o). rewrite seq_ops_snoc, <- app_assoc. apply leq_app_l.
      rewrite (cz_ops_perm' re _ P). cbn [cmd_ops].
      assert (E1 : [OCz n k] ≈ cz_ops [edge_norm (n, k)]) by (apply (cz_ops_perm [(n, k)] [edge_norm (n, k)]); apply Permutation_refl).
      change (cz_ops (edge_norm (n, k) :: re')) with (cz_ops [edge_norm (n, k)] ++ cz_ops re').
      rewrite <- E1. transitivity ((prep_ops rn ++ [OCz n k]) ++ cz_ops re' ++ rest o); [|rewrite <- !app_assoc; reflexivity].
      rewrite <- (comm1l (OCz n k) (prep_ops rn)); [reflexivity|].
      intros q Hq x Hx Hy. apply prep_onodes with (n := x) in Hq; auto. apply (s_rn _ _ _ _ _ _ _ _ H) in Hq.
      destruct Hx as [<-|[<-|[]]]; congruence.
    + apply runnable_snoc. split; [apply H|]. split; apply L; auto.
    + intros x. rewrite (s_init _ _ _ _ _ _ _ _ H x), exists_node_snoc. split; auto. intros [K|(s & K)]; auto. discriminate.
    + intros e K. apply (s_re _ _ _ _ _ _ _ _ H). eapply Permutation_in; [apply Permutation_sym; exact P|right; auto].
    + intros x. rewrite measured_snoc, (s_D _ _ _ _ _ _ _ _ H x). split; auto. intros [K|(? & ? & ? & K)]; auto. discriminate.
  - intros e. split.
    + intros K. split; [eapply Permutation_in; [apply Permutation_sym; exact P|right; auto]|]. intros ->. auto.
    + intros [K1 K2]. eapply Permutation_in in K1; [|exact P]. destruct K1; congruence.
Qed.

Lemma edge_norm_inj n k k' : edge_norm (n, k) = edge_norm (n, k') -> k = k'.
Proof. unfold edge_norm. cbn [fst snd]. intros [= A B]. lia. Qed.
Lemma step_nbs cmds init rn re rest D n done l : sinv st base cmds init rn re rest D -> mem n init = true -> ~ In n D ->
  (forall x, In x D -> mem x done = true) -> NoDup l ->
  (forall k, In k l -> mem k done = false -> In (edge_norm (n, k)) re) ->
  exists cmds' init' rn' re', rfold (fun a k => if mem k done then Ok a else
           do a <- ensure_active st a k; Ok (fst a ++ [CE n k], snd a)) l (cmds, init) = Ok (cmds', init') /\
    sinv st base cmds' init' rn' re' rest D /\ (forall k, mem k init = true -> mem k init' = true) /\
    forall e, In e re' <-> In e re /\ ~ exists k, In k l /\ mem k done = false /\ e = edge_norm (n, k).
Proof.
  revert cmds init rn re. induction l as [|k l IH]; intros cmds init rn re H Hn Dn HD ND HE.
  - exists cmds, init, rn, re. split; [reflexivity|]. split; auto. split; auto. intros e. split; [|tauto]. intros K. split; auto. intros (k & [] & _).
  - cbn [rfold]. inversion ND as [|? ? NI ND']; subst. destruct (mem k done) eqn:Ek.
    + destruct (IH cmds init rn re H Hn Dn HD ND') as (c' & i' & rn' & re' & A & B & C & D').
      { intros k' K1 K2. apply HE; [right; auto|auto]. }
      exists c', i', rn', re'. split; auto. split; auto. split; auto. intros e. rewrite D'. split; intros [K1 K2]; split; auto; intros (k' & Q1 & Q2 & Q3).
      * destruct Q1 as [<-|Q1]; [congruence|]. apply K2. eauto.
      * apply K2. exists k'. split; [right; auto|auto].
    + assert (HEk : In (edge_norm (n, k)) re) by (apply HE; [left; auto|auto]).
      assert (Nk : std_node st k).
      { destruct (sw_e _ W _ (s_re _ _ _ _ _ _ _ _ H _ HEk)) as (A & B & _). destruct (edge_norm_cases (n, k)) as [Q|Q]; rewrite Q in A, B; auto. }
      destruct (step_active _ _ _ _ _ _ k H Nk) as (c1 & i1 & rn1 & E1 & S1 & M1 & M1'). rewrite E1. cbn [rbind fst snd].
      destruct (step_edge _ _ _ _ _ _ n k S1) as (re1 & S2 & R2); auto.
      { intros Q. apply HD in Q. congruence. }
      destruct (IH _ _ _ _ S2 (M1' _ Hn) Dn HD ND') as (c' & i' & rn' & re' & A & B & C & D').
      { intros k' K1 K2. apply R2. split; [apply HE; [right; auto|auto]|]. intros Q. apply edge_norm_inj in Q. subst. auto. }
      exists c', i', rn', re'. split; auto. split; auto. split; auto. intros e. rewrite D', R2. split.
      * intros [[K1 K2] K3]. split; auto. intros (k' & [<-|Q1] & Q2 & Q3); auto. apply K3. eauto.
      * intros [K1 K2]. split; [split; auto|].
        -- intros Q. apply K2. exists k. split; [left; auto|auto].
        -- intros (k' & Q1 & Q2 & Q3). apply K2. exists k'. split; [right; auto|auto].
Qed.
(** edges with no endpoint processed yet *)
Definition open_edges (done : nset) (re : list (nat * nat)) : Prop :=
  forall e, In e re <-> In e (sp_e st) /\ mem (fst e) done = false /\ mem (snd e) done = false.
Lemma open_edge done re n k : open_edges done re -> In (edge_norm (n, k)) (sp_e st) -> mem n done = false -> mem k done = false -> In (edge_norm (n, k)) re.
Proof. intros H A B C. apply H. split; auto. destruct (edge_norm_cases (n, k)) as [Q|Q]; rewrite Q; auto. Qed.
Lemma sp_nodes_node n : std_node st n -> mem n (sp_nodes st) = true.
Proof. intros H. unfold sp_nodes. apply mem_of_list. rewrite !in_app_iff. destruct H; auto. Qed.
Lemma step_ensure cmds init rn re rest D n done : sinv st base cmds init rn re rest D -> std_node st n -> mem n done = false ->
  (forall x, In x D -> mem x done = true) -> open_edges done re ->
  exists cmds' init' rn' re', ensure_nb st nbs done (cmds, init) n = Ok (cmds', init') /\
    sinv st base cmds' init' rn' re' rest D /\ mem n init' = true /\ (forall k, mem k init = true -> mem k init' = true) /\ open_edges (sadd n done) re'.
Proof.
  intros H Hn Hd HD HO. unfold ensure_nb.
  destruct (step_active _ _ _ _ _ _ n H Hn) as (c1 & i1 & rn1 & E1 & S1 & M1 & M1'). rewrite E1. cbn [rbind].
  rewrite (sp_nodes_node n Hn). cbn [negb].
  assert (Dn : ~ In n D) by (intros Q; apply HD in Q; congruence).
  destruct (step_nbs _ _ _ _ _ _ n done (nbs n) S1 M1 Dn HD (proj1 (NB n))) as (c' & i' & rn' & re' & A & B & C & D').
  { intros k K1 K2. apply (open_edge done re); auto. apply NB; auto. }
  exists c', i', rn', re'. split; auto. split; auto. split; auto. split; auto.
  intros e. rewrite D', (HO e), !mem_sadd, !orb_false_iff, !Nat.eqb_neq. split.
  - intros [(K1 & K2 & K3) K4]. split; auto. destruct (sw_e _ W _ K1) as (_ & _ & K5).
    split; split; auto; intros Q; apply K4.
    + exists (snd e). subst n. rewrite <- surjective_pairing. split; [apply NB; rewrite <- surjective_pairing; congruence|auto].
    + exists (fst e). subst n. rewrite edge_norm_swap, <- surjective_pairing. split; [apply NB; rewrite edge_norm_swap, <- surjective_pairing; congruence|auto].
  - intros (K1 & (K2 & K3) & (K4 & K5)). split; auto. intros (k & Q1 & Q2 & Q3).
    destruct (edge_norm_cases (n, k)) as [Q|Q]; rewrite Q in Q3; subst e; cbn in *; auto.
Qed.
Lemma re_disj re n done : open_edges done re -> mem n done = true -> forall p, In p (cz_ops re) -> In n (onodes p) -> False.
Proof. intros H Hn p Hp Hx. destruct (cz_onodes _ _ _ Hp Hx) as (e & He & Q). apply H in He. destruct He as (_ & A & B). destruct Q as [-> | ->]; congruence. Qed.

(** emitting commands on the node just processed *)
Lemma emit_sem cmds init rn re rest D n done cs cs' rest' :
  sinv st base cmds init rn re rest D -> mem n init = true -> open_edges (sadd n done) re ->
  (forall o, rest o ≈ cs' o ++ rest' o) -> (forall o, seq_ops o cs ≈ cs' o) -> (forall o p k, In p (cs' o) -> In k (onodes p) -> k = n) ->
  forall o, seq_ops o (cmds ++ cs) ++ prep_ops rn ++ cz_ops re ++ rest' o ≈ base o.
Proof.
  intros H Hn HO HR HC HX o. rewrite <- (s_sem _ _ _ _ _ _ _ _ H o), HR, seq_ops_app, HC, <- app_assoc. apply leq_app_l.
  rewrite !app_assoc. apply leq_app_r. rewrite <- app_assoc. apply comm_ll.
  intros p q Hp Hq k K1 K2. pose proof (HX o p k Hp K1). subst k. apply in_app_or in Hq. destruct Hq as [Hq|Hq].
  - eapply rn_disj; [|exact Hq|exact K2]. intros Q. apply (s_rn _ _ _ _ _ _ _ _ H) in Q. congruence.
  - eapply re_disj; [exact HO| |exact Hq|exact K2]. rewrite mem_sadd, Nat.eqb_refl. auto.
Qed.

Lemma ensure_nb_ms done a n a' : ensure_nb st nbs done a n = Ok a' -> ms_of (fst a') = ms_of (fst a).
Proof.
  intros E1. unfold ensure_nb in E1.
  assert (EA : forall a n a', ensure_active st a n = Ok a' -> ms_of (fst a') = ms_of (fst a)).
  { intros b k b'. unfold ensure_active. destruct (mem k (snd b)); [congruence|]. destruct (dget (rev (sp_n st)) k); cbn [rbind]; [|discriminate]. intros [= <-]. cbn [fst]. rewrite ms_of_app. apply app_nil_r. }
  destruct (ensure_active st a n) as [b|] eqn:Ea; [|discriminate]. cbn [rbind] in E1. apply EA in Ea. rewrite <- Ea. clear Ea.
  destruct (mem n (sp_nodes st)); [|discriminate]. cbn [negb] in E1. revert b E1. generalize (nbs n). intros l. induction l as [|k l IH]; intros b E1; cbn [rfold] in E1; [injection E1 as ->; reflexivity|].
  destruct (mem k done); [auto|]. destruct (ensure_active st b k) as [a1|] eqn:Ea; [|discriminate]. cbn [rbind] in E1. rewrite (IH _ E1). cbn [fst]. rewrite ms_of_app. cbn. rewrite app_nil_r. apply (EA _ _ _ Ea).
Qed.
Lemma step_m cmds init rn re R D m ms done : sinv st base cmds init rn re (fun o => m_ops o (m :: ms) ++ R o) D ->
  std_node st (mc_node m) -> (forall x, mem x done = true <-> In x D) -> ~ In (mc_node m) D ->
  (forall k, mem k (mc_s m) = true \/ mem k (mc_t m) = true -> In k D) -> open_edges done re ->
  exists cmds' init' done' rn' re', sp_step_m st nbs (cmds, init, done) m = Ok (cmds', init', done') /\
    sinv st base cmds' init' rn' re' (fun o => m_ops o ms ++ R o) (mc_node m :: D) /\
    (forall x, mem x done' = true <-> In x (mc_node m :: D)) /\ open_edges done' re' /\
    mem (mc_node m) init' = true /\ (forall k, mem k init = true -> mem k init' = true) /\ ms_of cmds' = ms_of cmds ++ [mc_node m].
Proof.
  intros H Hn HD ND Hdom HO. unfold sp_step_m.
  assert (Hd : mem (mc_node m) done = false) by (apply not_true_iff_false; rewrite HD; auto).
  assert (M0 : forall a l, ms_of (a ++ l) = ms_of a ++ ms_of l) by apply ms_of_app.
  destruct (step_ensure _ _ _ _ _ _ (mc_node m) done H Hn Hd (fun x => proj2 (HD x)) HO) as (c1 & i1 & rn1 & re1 & E1 & S1 & M1 & M1' & O1).
  rewrite E1. cbn [rbind fst snd]. exists (c1 ++ [mcmd_cmd m]), i1, (sadd (mc_node m) done), rn1, re1. split; [reflexivity|].
  assert (LV : live (sp_in st) c1 (mc_node m)).
  { split; [apply (s_init _ _ _ _ _ _ _ _ S1); auto|]. rewrite (s_D _ _ _ _ _ _ _ _ S1). auto. }
  split; [|split; [|split; [|split; [|split]]]]; auto.
  - constructor; try apply S1.
    + apply (emit_sem _ _ _ _ _ _ (mc_node m) done [mcmd_cmd m] (fun o => cmd_ops o (mcmd_cmd m)) _ S1 M1 O1).
      * intros o. unfold m_ops. cbn [map seq_ops flat_map]. unfold seq_ops. rewrite <- app_assoc. reflexivity.
      * intros o. unfold seq_ops. cbn [flat_map]. rewrite app_nil_r. reflexivity.
      * intros o p k Hp Hk. cbn in Hp. destruct Hp as [<-|[]]. destruct Hk as [<-|[]]. auto.
    + apply runnable_snoc. split; [apply S1|]. split; auto. intros k Hk. apply (s_D _ _ _ _ _ _ _ _ S1). auto.
    + intros x. rewrite (s_init _ _ _ _ _ _ _ _ S1 x), exists_node_snoc. split; auto. intros [K|(s & K)]; auto. discriminate.
    + intros x. rewrite measured_snoc, (s_D _ _ _ _ _ _ _ _ S1 x). cbn [In]. split.
      * intros [K|(? & ? & ? & K)]; auto. left. unfold mcmd_cmd in K. congruence.
      * intros [<-|K]; auto. right. unfold mcmd_cmd. eauto.
  - intros x. rewrite mem_sadd, orb_true_iff, Nat.eqb_eq, HD. cbn [In]. intuition.
  - rewrite ms_of_app. cbn. f_equal.
    apply (ensure_nb_ms _ _ _ _ E1).
Qed.
Lemma out_cmds_ops o n : seq_ops o (out_cmds st n) ≈ [OApp1 (pend o st n) n].
Proof.
  unfold out_cmds. rewrite !seq_ops_app.
  assert (EZ : seq_ops o (match dget_ne (sp_z st) n with Some d => [CZ n d] | None => [] end) ≈ [OApp1 (mpow mZ (parity o (dz (sp_z st) n))) n]).
  { destruct (dget_ne (sp_z st) n) as [d|] eqn:E.
    - rewrite (dget_ne_Some _ _ _ E). apply (seq_ops_zs o [(n, d)]).
    - rewrite (dget_ne_None _ _ E), parity_empty. symmetry. apply app1_id. }
  assert (EX : seq_ops o (match dget_ne (sp_x st) n with Some d => [CX n d] | None => [] end) ≈ [OApp1 (mpow mX (parity o (dz (sp_x st) n))) n]).
  { destruct (dget_ne (sp_x st) n) as [d|] eqn:E.
    - rewrite (dget_ne_Some _ _ _ E). apply (seq_ops_xs o [(n, d)]).
    - rewrite (dget_ne_None _ _ E), parity_empty. symmetry. apply app1_id. }
  assert (EC : seq_ops o (match dget (sp_c st) n with Some c => [CC n c] | None => [] end) ≈ [OApp1 (clifford_mat (cc st n)) n]).
  { unfold cc. destruct (dget (sp_c st) n); [reflexivity|]. rewrite clifford_mat_I. symmetry. apply app1_id. }
  rewrite EZ, EX, EC. cbn [app]. change [?a; ?b; ?c] with ([a; b] ++ [c]). rewrite app1_fuse. cbn [app]. rewrite app1_fuse. reflexivity.
Qed.
Lemma out_cmds_cases n c : In c (out_cmds st n) -> (exists d, c = CZ n d /\ d = dz (sp_z st) n) \/ (exists d, c = CX n d /\ d = dz (sp_x st) n) \/ exists g, c = CC n g.
Proof.
  unfold out_cmds. rewrite !in_app_iff. intros [H|[H|H]].
  - destruct (dget_ne (sp_z st) n) eqn:E; [|destruct H]. destruct H as [<-|[]]. left. eexists. split; eauto. symmetry. apply dget_ne_Some; auto.
  - destruct (dget_ne (sp_x st) n) eqn:E; [|destruct H]. destruct H as [<-|[]]. right; left. eexists. split; eauto. symmetry. apply dget_ne_Some; auto.
  - destruct (dget (sp_c st) n); [|destruct H]. destruct H as [<-|[]]. eauto.
Qed.
Lemma runnable_more inp l cs n D : runnable inp l -> live inp l n -> (forall x, measured_in l x <-> In x D) ->
  (forall c, In c cs -> (exists d, (c = CZ n d \/ c = CX n d) /\ forall k, mem k d = true -> In k D) \/ exists g, c = CC n g) ->
  runnable inp (l ++ cs) /\ (forall x, measured_in (l ++ cs) x <-> In x D) /\ (forall x, exists_node inp (l ++ cs) x <-> exists_node inp l x).
Proof.
  intros HR HL HD. induction cs as [|c cs IH] using rev_ind; intros HC; [rewrite app_nil_r; repeat split; auto; apply HD|].
  destruct IH as (A & B & C); [intros; apply HC, in_or_app; auto|]. rewrite app_assoc.
  assert (L2 : live inp (l ++ cs) n). { destruct HL as [X Y]. split; [apply C; auto|]. rewrite B, <- HD. auto. }
  assert (K := HC c (in_or_app _ [c] _ (or_intror (or_introl eq_refl)))). split; [|split].
  - apply runnable_snoc. split; auto. destruct K as [(d & [-> | ->] & Hd)|(g & ->)]; cbn; auto; split; auto; intros; apply B; auto.
  - intros x. rewrite measured_snoc, B. split; auto. intros [Q|(? & ? & ? & Q)]; auto. destruct K as [(d & [-> | ->] & _)|(g & ->)]; discriminate.
  - intros x. rewrite exists_node_snoc, C. split; auto. intros [Q|(? & Q)]; auto. destruct K as [(d & [-> | ->] & _)|(g & ->)]; discriminate.
Qed.
Lemma out_cmds_ms n : ms_of (out_cmds st n) = [].
Proof. unfold out_cmds. destruct (dget_ne (sp_z st) n), (dget_ne (sp_x st) n), (dget (sp_c st) n); reflexivity. Qed.
Lemma step_out cmds init rn re D n outs done : sinv st base cmds init rn re (fun o => layer (n :: outs) (pend o st)) D ->
  std_node st n -> mem n done = false -> (forall x, In x D -> mem x done = true) -> (forall x, std_meas st x -> In x D) -> open_edges done re ->
  exists cmds' init' rn' re', sp_step_out st nbs (cmds, init, done) n = Ok (cmds', init', sadd n done) /\
    sinv st base cmds' init' rn' re' (fun o => layer outs (pend o st)) D /\ open_edges (sadd n done) re' /\
    mem n init' = true /\ (forall k, mem k init = true -> mem k init' = true) /\ ms_of cmds' = ms_of cmds.
Proof.
  intros H Hn Hd HD HM HO. unfold sp_step_out.
  destruct (step_ensure _ _ _ _ _ _ n done H Hn Hd HD HO) as (c1 & i1 & rn1 & re1 & E1 & S1 & M1 & M1' & O1).
  rewrite E1. cbn [rbind fst snd]. exists (c1 ++ out_cmds st n), i1, rn1, re1. split; [reflexivity|].
  assert (LV : live (sp_in st) c1 n).
  { split; [apply (s_init _ _ _ _ _ _ _ _ S1); auto|]. rewrite (s_D _ _ _ _ _ _ _ _ S1). intros K. apply HD in K. congruence. }
  destruct (runnable_more (sp_in st) c1 (out_cmds st n) n D (s_run _ _ _ _ _ _ _ _ S1) LV (s_D _ _ _ _ _ _ _ _ S1)) as (A & B & C).
  { intros c Hc. destruct (out_cmds_cases n c Hc) as [(d & -> & ->)|[(d & -> & ->)|G]]; auto; left; eexists; split; eauto; intros k Hk; apply HM.
    - eapply sw_zd; eauto. - eapply sw_xd; eauto. }
  split; [|split; [|split; [|split]]]; auto.
  - constructor; try apply S1; auto.
    + apply (emit_sem _ _ _ _ _ _ n done (out_cmds st n) (fun o => [OApp1 (pend o st n) n]) _ S1 M1 O1).
      * intros o. reflexivity.
      * intros o. apply out_cmds_ops.
      * intros o p k [<-|[]] [<-|[]]. auto.
    + intros x. rewrite C. apply (s_init _ _ _ _ _ _ _ _ S1).
  - rewrite ms_of_app, out_cmds_ms, app_nil_r. apply (ensure_nb_ms _ _ _ _ E1).
Qed.
Lemma loop_m ms : forall cmds init rn re R pre done, sinv st base cmds init rn re (fun o => m_ops o ms ++ R o) (rev (map mc_node pre)) ->
  sp_m st = pre ++ ms -> (forall x, mem x done = true <-> In x (rev (map mc_node pre))) -> open_edges done re ->
  (forall x, mem x done = true -> mem x init = true) ->
  exists cmds' init' done' rn' re', rfold (sp_step_m st nbs) ms (cmds, init, done) = Ok (cmds', init', done') /\
    sinv st base cmds' init' rn' re' R (rev (map mc_node (sp_m st))) /\
    (forall x, mem x done' = true <-> std_meas st x) /\ open_edges done' re' /\ (forall x, mem x done' = true -> mem x init' = true) /\
    ms_of cmds' = ms_of cmds ++ map mc_node ms.
Proof.
  induction ms as [|m ms IH]; intros cmds init rn re R pre done H EM HD HO HI.
  - cbn [rfold map]. exists cmds, init, done, rn, re. rewrite app_nil_r in EM. rewrite EM. split; [reflexivity|]. split; [exact H|].
    split; [|rewrite app_nil_r; auto]. intros x. rewrite HD, <- in_rev. unfold std_meas. rewrite EM. tauto.
  - assert (NDm := sw_mN _ W). rewrite EM, map_app in NDm. cbn [map] in NDm.
    destruct (step_m _ _ _ _ R _ m ms done H) as (c1 & i1 & d1 & rn1 & re1 & E1 & S1 & D1 & O1 & I1 & I1' & MS1); auto.
    { apply (sw_mn _ W). unfold std_meas. rewrite EM, map_app, in_app_iff. cbn. auto. }
    { rewrite <- in_rev. apply NoDup_remove_2 in NDm. rewrite in_app_iff in NDm. tauto. }
    { intros k Hk. rewrite <- in_rev. eapply (sw_ord _ W); eauto. }
    cbn [rfold]. rewrite E1.
    destruct (IH c1 i1 rn1 re1 R (pre ++ [m]) d1) as (c2 & i2 & d2 & rn2 & re2 & E2 & S2 & D2 & O2 & I2 & MS2).
    { rewrite map_app, rev_app_distr. cbn [map rev app]. exact S1. }
    { rewrite <- app_assoc. auto. }
    { intros x. rewrite map_app, rev_app_distr. cbn [map rev app]. apply D1. }
    { auto. }
    { intros x Hx. apply D1 in Hx. destruct Hx as [<-|Hx]; auto. apply I1', HI, HD; auto. }
    exists c2, i2, d2, rn2, re2. split; [exact E2|]. split; [exact S2|]. split; [exact D2|]. split; auto. split; auto. rewrite MS2, MS1, <- app_assoc. reflexivity.
Qed.
Lemma loop_out outs : forall cmds init rn re D done, sinv st base cmds init rn re (fun o => layer outs (pend o st)) D ->
  (forall n, In n outs -> std_node st n /\ mem n done = false) -> NoDup outs -> (forall x, In x D -> mem x done = true) -> (forall x, std_meas st x -> In x D) ->
  open_edges done re -> (forall x, mem x done = true -> mem x init = true) ->
  exists cmds' init' done' rn' re', rfold (sp_step_out st nbs) outs (cmds, init, done) = Ok (cmds', init', done') /\
    sinv st base cmds' init' rn' re' (fun o => []) D /\
    (forall x, mem x done' = true <-> mem x done = true \/ In x outs) /\ open_edges done' re' /\ (forall x, mem x done' = true -> mem x init' = true) /\
    ms_of cmds' = ms_of cmds.
Proof.
  induction outs as [|n outs IH]; intros cmds init rn re D done H HN ND HD HM HO HI.
  - exists cmds, init, done, rn, re. split; [reflexivity|]. split; [exact H|]. split; [intros x; cbn; tauto|auto].
  - inversion ND as [|? ? NI ND']; subst. destruct (HN n (or_introl eq_refl)) as [N1 N2].
    destruct (step_out _ _ _ _ _ n outs done H N1 N2 HD HM HO) as (c1 & i1 & rn1 & re1 & E1 & S1 & O1 & I1 & I1' & MS1).
    cbn [rfold]. rewrite E1.
    destruct (IH c1 i1 rn1 re1 D (sadd n done) S1) as (c2 & i2 & d2 & rn2 & re2 & E2 & S2 & D2 & O2 & I2 & MS2); auto.
    { intros k Hk. split; [apply HN; right; auto|]. rewrite mem_sadd. apply orb_false_intro; [apply Nat.eqb_neq; intros ->; auto|apply HN; right; auto]. }
    { intros x Hx. rewrite mem_sadd, (HD x Hx). apply orb_true_r. }
    { intros x. rewrite mem_sadd, orb_true_iff, Nat.eqb_eq. intros [->|K]; auto. }
    exists c2, i2, d2, rn2, re2. split; [exact E2|]. split; [exact S2|]. split; [|split; [auto|split; [auto|congruence]]].
    intros x. rewrite D2, mem_sadd, orb_true_iff, Nat.eqb_eq. cbn [In]. intuition.
Qed.
End Fix.

Lemma has_loop_enum st es : edge_enum st es -> existsb (fun e => (fst e =? snd e)%nat) es = has_loop st.
Proof.
  intros P. unfold has_loop. assert (E : existsb (fun e : nat * nat => (fst e =? snd e)%nat) es = existsb (fun e => (fst e =? snd e)%nat) (map edge_norm es)).
  { clear. induction es as [|[a b] es IH]; auto. cbn. rewrite IH. f_equal. apply eq_true_iff_eq. rewrite !Nat.eqb_eq. lia. }
  rewrite E. apply eq_true_iff_eq. rewrite !existsb_exists. split; intros (e & A & B); exists e; split; auto; (eapply Permutation_in; [|exact A]); auto. apply Permutation_sym; auto.
Qed.
Theorem space_cmds_ok st nbs : std_wf st -> std_out_ok st -> nbs_ok st nbs -> has_loop st = false ->
  exists l, space_cmds st nbs = Ok l /\ runnable (sp_in st) l /\ ms_of l = map mc_node (sp_m st) /\
    (forall n, exists_node (sp_in st) l n <-> std_node st n) /\
    forall es o, edge_enum st es -> same_branch o (std_cmds st es) l.
Proof.
  intros W [NO HO] NB HL. unfold space_cmds. rewrite HL.
  assert (Hnd : forall n, std_node st n -> std_meas st n \/ In n (sp_out st)).
  { intros n Hn. destruct (in_dec Nat.eq_dec n (map mc_node (sp_m st))) as [I|I]; [left; auto|right; apply HO; auto]. }
  set (base := fun o => prep_ops (sp_n st) ++ cz_ops (sp_e st) ++ m_ops o (sp_m st) ++ layer (sp_out st) (pend o st)).
  destruct (loop_m st base nbs W NB (sp_m st) [] (of_list (sp_in st)) (sp_n st) (sp_e st) (fun o => layer (sp_out st) (pend o st)) [] sempty) as (c1 & i1 & d1 & rn1 & re1 & E1 & S1 & D1 & O1 & I1 & M1).
  - assert (X : forall n, exists_node (sp_in st) [] n <-> In n (sp_in st)) by (intros n; split; [intros [?|(? & [])]; auto|left; auto]).
    constructor; try apply W.
    + intros o. reflexivity.
    + apply runnable_nil.
    + intros n. rewrite mem_of_list, X. tauto.
    + intros n. rewrite mem_of_list. left; auto.
    + intros n Hn. apply not_true_iff_false. rewrite mem_of_list. apply W; auto.
    + intros n [Hn|Hn] K; auto. exfalso. apply not_true_iff_false in K. rewrite mem_of_list in K. auto.
    + auto.
    + auto.
    + intros n. cbn. split; [intros (? & ? & ? & [])|tauto].
  - reflexivity.
  - intros x. cbn. split; [rewrite mem_empty; discriminate|tauto].
  - intros e. rewrite !mem_empty. tauto.
  - intros x. rewrite mem_empty. discriminate.
  - rewrite E1. cbn [rbind].
    destruct (loop_out st base nbs W NB (sp_out st) c1 i1 rn1 re1 _ d1 S1) as (c2 & i2 & d2 & rn2 & re2 & E2 & S2 & D2 & O2 & I2 & M2); auto.
    { intros n Hn. apply HO in Hn. split; [apply Hn|]. apply not_true_iff_false. rewrite D1. apply Hn. }
    { intros x Hx. apply D1. unfold std_meas. rewrite in_rev. auto. }
    { intros x Hx. rewrite <- in_rev. auto. }
    rewrite E2. cbn [rbind fst]. exists c2. split; [reflexivity|]. split; [apply S2|].
    assert (All : forall n, std_node st n -> mem n i2 = true).
    { intros n Hn. apply I2, D2. destruct (Hnd n Hn) as [K|K]; auto. left. apply D1; auto. }
    assert (Rn : rn2 = []).
    { destruct rn2 as [|p rn2]; auto. exfalso. assert (A := s_rn _ _ _ _ _ _ _ _ S2 (fst p) (or_introl eq_refl)). assert (B := s_rnin _ _ _ _ _ _ _ _ S2 p (or_introl eq_refl)).
      rewrite All in A; [discriminate|]. right. apply in_map; auto. }
    assert (Re : re2 = []).
    { destruct re2 as [|e re2]; auto. exfalso. assert (A := proj1 (O2 e) (or_introl eq_refl)). destruct A as (A & B & _). destruct (sw_e _ W _ A) as (A1 & _ & _).
      apply not_true_iff_false in B. apply B. apply D2. destruct (Hnd _ A1) as [K|K]; auto. left. apply D1; auto. }
    subst. split; [|split].
    + rewrite M2, M1. reflexivity.
    + intros n. rewrite <- (s_init _ _ _ _ _ _ _ _ S2 n). split; [apply (s_node _ _ _ _ _ _ _ _ S2)|apply All].
    + intros es o HE. unfold same_branch. assert (K := s_sem _ _ _ _ _ _ _ _ S2 o). cbn in K. rewrite app_nil_r in K. rewrite K.
      unfold base, std_cmds. rewrite !seq_ops_app, seq_ops_prep, seq_ops_cz, (cz_ops_perm es (sp_e st) HE).
      rewrite (corr_layer o st (sp_out st)); try (apply W; fail); auto; try reflexivity; intros n Hn; apply HO.
      * apply (sw_zk _ W); auto. * apply (sw_xk _ W); auto. * apply (sw_ck _ W); auto.
Qed.
