(** Model of [StandardizedPattern] and of standardization
    (graphix/optimization.py), with its semantic correctness. *)
From Coq Require Import Reals Arith ZArith NArith List Bool Lia Permutation Setoid Morphisms.
From Verif Require Import Cplx Mat2 Fundamentals CliffordDb Clifford NSet Measure QState Pattern Layer.
Import ListNotations.

(** * The model *)
(** command.py:123-142 an M command *)
Record mcmd := MC { mc_node : nat; mc_meas : measurement; mc_s : nset; mc_t : nset }.
Definition mcmd_cmd (m : mcmd) : cmd := CM (mc_node m) (mc_meas m) (mc_s m) (mc_t m).
(** command.py:144-163 M.clifford *)
Definition mcmd_clifford (m : mcmd) (c : clifford) : mcmd :=
  let '(s, t) := commute_domains c (mc_s m) (mc_t m) in
  MC (mc_node m) (meas_clifford (mc_meas m) c) s t.

(** optimization.py:69-88.  [sp_e] is a Python frozenset of frozensets: we keep
    a duplicate-free list of sorted pairs, whose order is not observable (see
    [edge_enum]); a one-element frozenset {n} (command E(n,n)) is kept as (n,n). *)
Record stdp := Std {
  sp_in : list nat; sp_out : list nat;
  sp_n : list (nat * nstate);
  sp_e : list (nat * nat);
  sp_m : list mcmd;
  sp_z : dict nset; sp_x : dict nset; sp_c : dict clifford }.

Definition edge_norm (e : nat * nat) : nat * nat := (Nat.min (fst e) (snd e), Nat.max (fst e) (snd e)).
Definition edge_eqb (a b : nat * nat) : bool := (fst a =? fst b)%nat && (snd a =? snd b)%nat.
(** e_set.symmetric_difference_update((edge,)), optimization.py:186 *)
Definition edge_toggle (e : nat * nat) (es : list (nat * nat)) : list (nat * nat) :=
  if existsb (edge_eqb e) es then filter (fun x => negb (edge_eqb e x)) es else es ++ [e].

(** optimization.py:488-503 _add_correction_domain *)
Definition add_correction_domain (d : dict nset) (n : nat) (dom : nset) : dict nset :=
  match dget d n with
  | Some prev => if is_empty prev then dset d n dom else dset d n (sxor prev dom)
  | None => dset d n dom
  end.
(** optimization.py:508-531 _commute_clifford *)
Definition commute_clifford (g : clifford) (c : dict clifford) (i j : nat) : res (dict clifford) :=
  match g with
  | gI | gZ | gS | gSdg => Ok c
  | gX | gY | K9 | K10 => Ok (dset c j (clifford_mul gZ (match dget c j with Some g' => g' | None => gI end)))
  | _ => Err ENotImplemented
  end.
(** [if dom := d.get(n):] non-empty domain lookup *)
Definition dget_ne (d : dict nset) (n : nat) : option nset :=
  match dget d n with Some s => if is_empty s then None else Some s | None => None end.
(** optimization.py:179-184 one side of an E command *)
Definition std_side (st : stdp) (i j : nat) : res stdp :=
  do c <- (match dget (sp_c st) i with Some g => commute_clifford g (sp_c st) i j | None => Ok (sp_c st) end);
  let z := match dget_ne (sp_x st) i with Some d => add_correction_domain (sp_z st) j d | None => sp_z st end in
  Ok (Std (sp_in st) (sp_out st) (sp_n st) (sp_e st) (sp_m st) z (sp_x st) c).
(** optimization.py:173-221 one iteration of the loop *)
Definition std_step (st : stdp) (cm : cmd) : res stdp :=
  match cm with
  | CN n s => Ok (Std (sp_in st) (sp_out st) (sp_n st ++ [(n, s)]) (sp_e st) (sp_m st) (sp_z st) (sp_x st) (sp_c st))
  | CE u v =>
      do st1 <- std_side st u v;
      do st2 <- std_side st1 v u;
      Ok (Std (sp_in st2) (sp_out st2) (sp_n st2) (edge_toggle (edge_norm (u, v)) (sp_e st2)) (sp_m st2) (sp_z st2) (sp_x st2) (sp_c st2))
  | CM n me s t =>
      let m := match dget (sp_c st) n with Some g => mcmd_clifford (MC n me s t) g | None => MC n me s t end in
      let m := match dget_ne (sp_z st) n with Some d => MC (mc_node m) (mc_meas m) (mc_s m) (sxor (mc_t m) d) | None => m end in
      let m := match dget_ne (sp_x st) n with Some d => MC (mc_node m) (mc_meas m) (sxor (mc_s m) d) (mc_t m) | None => m end in
      Ok (Std (sp_in st) (sp_out st) (sp_n st) (sp_e st) (sp_m st ++ [m]) (ddel (sp_z st) n) (ddel (sp_x st) n) (ddel (sp_c st) n))
  | CX n d | CZ n d =>
      let '(s0, t0) := match cm with CX _ _ => (d, sempty) | _ => (sempty, d) end in
      let '(s, t) := commute_domains (match dget (sp_c st) n with Some g => g | None => gI end) s0 t0 in
      let z := if is_empty t then sp_z st else add_correction_domain (sp_z st) n t in
      let x := if is_empty s then sp_x st else add_correction_domain (sp_x st) n s in
      Ok (Std (sp_in st) (sp_out st) (sp_n st) (sp_e st) (sp_m st) z x (sp_c st))
  | CC n c =>
      Ok (Std (sp_in st) (sp_out st) (sp_n st) (sp_e st) (sp_m st) (sp_z st) (sp_x st)
            (dset (sp_c st) n (clifford_mul c (match dget (sp_c st) n with Some g => g | None => gI end))))
  | CS _ _ | CT => Ok st
  end.
Definition std_init (p : pattern) : stdp := Std (p_in p) (p_out p) [] [] [] [] [] [].
(** optimization.py:152-222 StandardizedPattern.from_pattern *)
Definition from_pattern (p : pattern) : res stdp :=
  do _ <- check_runnability p;
  rfold std_step (p_seq p) (std_init p).

(** the commands emitted by to_pattern when the edge set is iterated as [es]
    (optimization.py:308-322) *)
Definition std_cmds (st : stdp) (es : list (nat * nat)) : list cmd :=
  map (fun p => CN (fst p) (snd p)) (sp_n st)
  ++ map (fun e => CE (fst e) (snd e)) es
  ++ map mcmd_cmd (sp_m st)
  ++ map (fun p => CZ (fst p) (snd p)) (sp_z st)
  ++ map (fun p => CX (fst p) (snd p)) (sp_x st)
  ++ map (fun p => CC (fst p) (snd p)) (sp_c st).
(** [es] is an iteration of the frozenset of frozensets: every edge once, in any
    order and in any orientation *)
Definition edge_enum (st : stdp) (es : list (nat * nat)) : Prop := Permutation (map edge_norm es) (sp_e st).
(** optimization.py:308-322 to_pattern; [for u, v in e_set] raises ValueError on
    a one-element frozenset *)
Definition to_pattern (st : stdp) (es : list (nat * nat)) : res pattern :=
  if existsb (fun e => (fst e =? snd e)%nat) es then Err EValue
  else reorder_output_nodes (pat_extend (pat_new (sp_in st)) (std_cmds st es)) (sp_out st).
(** optimization.py:48-66 standardize / pattern.py:581-588 Pattern.standardize;
    a relation because of the iteration order of the edge set *)
Definition standardizes (p : pattern) (r : res pattern) : Prop :=
  match from_pattern p with
  | Ok st => exists es, edge_enum st es /\ r = to_pattern st es
  | Err e => r = Err e
  end.

(** * Basic facts *)
Lemma edge_eqb_eq a b : edge_eqb a b = true <-> a = b.
Proof.
  unfold edge_eqb. destruct a as [a1 a2], b as [b1 b2]; simpl. rewrite andb_true_iff, !Nat.eqb_eq.
  split; [intros [-> ->]; auto|intros [= -> ->]; auto].
Qed.
Lemma edge_norm_idem e : edge_norm (edge_norm e) = edge_norm e.
Proof. destruct e as [a b]; unfold edge_norm; simpl. f_equal; lia. Qed.
Lemma edge_norm_swap u v : edge_norm (u, v) = edge_norm (v, u).
Proof. unfold edge_norm; simpl. f_equal; lia. Qed.
Lemma edge_norm_cases e : edge_norm e = e \/ edge_norm e = (snd e, fst e).
Proof. destruct e as [a b]; unfold edge_norm; simpl. destruct (Nat.le_ge_cases a b); [left|right]; f_equal; lia. Qed.
Lemma edge_toggle_NoDup e es : NoDup es -> NoDup (edge_toggle e es).
Proof.
  intros H. unfold edge_toggle. destruct (existsb (edge_eqb e) es) eqn:E.
  - apply NoDup_filter; auto.
  - apply NoDup_app; auto; [constructor; auto; constructor|]. intros x Hx [<-|[]].
    rewrite <- not_true_iff_false in E. apply E. apply existsb_exists. exists e; split; auto. apply edge_eqb_eq; auto.
Qed.
Lemma edge_toggle_In e es x : In x (edge_toggle e es) -> x = e \/ In x es.
Proof.
  unfold edge_toggle. destruct (existsb (edge_eqb e) es).
  - rewrite filter_In. tauto.
  - rewrite in_app_iff. simpl. intuition.
Qed.

Definition dz (d : dict nset) (n : nat) : nset := match dget d n with Some s => s | None => sempty end.
Definition cc (st : stdp) (n : nat) : clifford := match dget (sp_c st) n with Some g => g | None => K0 end.
Lemma dz_add d n dom k : dz (add_correction_domain d n dom) k = if (k =? n)%nat then sxor (dz d n) dom else dz d k.
Proof.
  unfold add_correction_domain, dz. rewrite Nat.eqb_sym. destruct (dget d n) as [prev|] eqn:E.
  - destruct (is_empty prev) eqn:Ee; rewrite dget_dset; destruct (Nat.eqb_spec n k); auto.
    apply is_empty_spec in Ee. subst. rewrite sxor_0_l; auto.
  - rewrite dget_dset. destruct (Nat.eqb_spec n k); rewrite ?sxor_0_l; auto.
Qed.
Lemma add_keys d n dom k : In k (dkeys (add_correction_domain d n dom)) <-> k = n \/ In k (dkeys d).
Proof.
  unfold add_correction_domain. destruct (dget d n) as [prev|]; [destruct (is_empty prev)|]; apply dkeys_dset.
Qed.
Lemma add_NoDup d n dom : NoDup (dkeys d) -> NoDup (dkeys (add_correction_domain d n dom)).
Proof.
  unfold add_correction_domain. destruct (dget d n) as [prev|]; [destruct (is_empty prev)|]; apply dset_NoDup.
Qed.
Lemma dz_del d n k : dz (ddel d n) k = if (k =? n)%nat then sempty else dz d k.
Proof. unfold dz. rewrite dget_ddel, Nat.eqb_sym. destruct (k =? n)%nat; auto. Qed.
Lemma dget_ne_Some d n s : dget_ne d n = Some s -> dz d n = s.
Proof. unfold dget_ne, dz. destruct (dget d n); [|discriminate]. destruct (is_empty n0); congruence. Qed.
Lemma dget_ne_None d n : dget_ne d n = None -> dz d n = sempty.
Proof.
  unfold dget_ne, dz. destruct (dget d n); auto. destruct (is_empty n0) eqn:E; [|discriminate].
  intros _. apply is_empty_spec; auto.
Qed.
Lemma dz_In d n : NoDup (dkeys d) -> forall s, In (n, s) d -> dz d n = s.
Proof. intros H s Hin. unfold dz. rewrite (In_dget d n s); auto. Qed.
Lemma dz_notin d n : ~ In n (dkeys d) -> dz d n = sempty.
Proof. intros H. unfold dz. apply dget_None in H. rewrite H; auto. Qed.

Definition da (b : bool) (U : mat2) : Prop := if b then antidiagonal U else diagonal U.
Lemma da_mul a b A B : da a A -> da b B -> da (xorb a b) (mmul A B).
Proof.
  destruct a, b; unfold da, diagonal, antidiagonal; simpl; intros [H1 H2] [H3 H4]; simpl; rewrite ?H1, ?H2, ?H3, ?H4; split; ring.
Qed.
Lemma da_XZ s t : da s (mXZ s t).
Proof. destruct s, t; unfold da, diagonal, antidiagonal; simpl; split; ring. Qed.
Lemma da_Z_comm a U b : da a U -> mmul (mpow mZ b) U ~= mmul U (mpow mZ b).
Proof.
  intros H. destruct b; simpl; [|rewrite mmul_1_l, mmul_1_r; apply meqp_refl].
  destruct a; destruct H as [H1 H2].
  - exists (- C1)%C. split; [apply phase_neg1 || (unfold phase, Cnorm2; simpl; ring)|].
    apply mat2_eq; simpl; rewrite ?H1, ?H2; ring.
  - apply meqp_eq. apply mat2_eq; simpl; rewrite ?H1, ?H2; ring.
Qed.
Lemma cz_da a b A B u v : da a A -> da b B -> u <> v ->
  [OApp1 A u; OApp1 B v; OCz u v] ≈ [OCz u v; OApp1 (mmul (mpow mZ b) A) u; OApp1 (mmul (mpow mZ a) B) v].
Proof.
  intros HA HB Hne.
  assert (EB : [OApp1 B v; OCz u v] ≈ [OCz u v; OApp1 (mpow mZ b) u; OApp1 B v]).
  { destruct b; simpl in *.
    - apply cz_antidiag''; auto.
    - rewrite (cz_diag'' B u v) by auto. symmetry.
      apply leq_cons. apply (leq_app_r [OApp1 mid u] [] [OApp1 B v]). apply app1_id. }
  assert (EA : [OApp1 A u; OCz u v] ≈ [OCz u v; OApp1 (mpow mZ a) v; OApp1 A u]).
  { destruct a; simpl in *.
    - apply cz_antidiag'; auto.
    - rewrite (cz_diag' A u v) by auto. symmetry.
      apply leq_cons. apply (leq_app_r [OApp1 mid v] [] [OApp1 A u]). apply app1_id. }
  rewrite EB. change [OApp1 A u; OCz u v; ?x; ?y] with ([OApp1 A u; OCz u v] ++ [x; y]).
  rewrite EA. cbn [app]. apply leq_cons.
  assert (D : forall U V, odisj (OApp1 U u) (OApp1 V v)) by (intros U V k [<-|[]] [<-|[]]; auto).
  assert (D' : forall U V, odisj (OApp1 U v) (OApp1 V u)) by (intros U V k [<-|[]] [<-|[]]; auto).
  transitivity ([OApp1 A u; OApp1 (mpow mZ b) u; OApp1 (mpow mZ a) v; OApp1 B v]).
  - transitivity (OApp1 A u :: OApp1 (mpow mZ a) v :: [OApp1 (mpow mZ b) u; OApp1 B v]).
    + apply (leq_app_r [_;_] [_;_]). apply comm2, D'.
    + apply leq_cons. apply (leq_app_r [_;_] [_;_]). apply comm2, D'.
  - change [OApp1 A u; OApp1 (mpow mZ b) u; ?x; ?y] with ([OApp1 A u; OApp1 (mpow mZ b) u] ++ [x; y]).
    rewrite app1_fuse. cbn [app]. apply leq_cons.
    rewrite app1_fuse. apply app1_meqp. apply meqp_sym, (da_Z_comm b); auto.
Qed.

Definition get0 (c : dict clifford) (n : nat) : clifford := match dget c n with Some g => g | None => K0 end.
Lemma gC_00 : gC (0, 0)%Z = C0.
Proof. reflexivity. Qed.
Definition cclass (g : clifford) : option bool :=
  match g with
  | gI | gZ | gS | gSdg => Some false
  | gX | gY | K9 | K10 => Some true
  | _ => None
  end.
Lemma cclass_da g a : cclass g = Some a -> da a (clifford_mat g).
Proof.
  destruct g; simpl; try discriminate; intros [= <-]; unfold da, diagonal, antidiagonal, clifford_mat, ginterp;
  simpl; rewrite ?gC_00; split; ring.
Qed.
Lemma commute_clifford_cases g c i j :
  commute_clifford g c i j = match cclass g with
    | Some true => Ok (dset c j (clifford_mul gZ (get0 c j)))
    | Some false => Ok c
    | None => Err ENotImplemented
    end.
Proof. destruct g; reflexivity. Qed.
Lemma cclass_mulZ g a : cclass g = Some a -> cclass (clifford_mul gZ g) = Some a.
Proof. destruct g; simpl; try discriminate; intros [= <-]; vm_compute; reflexivity. Qed.

(** effect of one side of an E command *)
Lemma std_side_spec st i j st' : std_side st i j = Ok st' ->
  exists a, cclass (cc st i) = Some a
  /\ sp_in st' = sp_in st /\ sp_out st' = sp_out st /\ sp_n st' = sp_n st /\ sp_e st' = sp_e st /\ sp_m st' = sp_m st
  /\ sp_x st' = sp_x st
  /\ (forall n, dz (sp_z st') n = if (n =? j)%nat then sxor (dz (sp_z st) j) (dz (sp_x st) i) else dz (sp_z st) n)
  /\ (forall n, cc st' n = if (n =? j)%nat && a then clifford_mul gZ (cc st j) else cc st n)
  /\ (NoDup (dkeys (sp_z st)) -> NoDup (dkeys (sp_z st'))) /\ (NoDup (dkeys (sp_c st)) -> NoDup (dkeys (sp_c st')))
  /\ (forall n, In n (dkeys (sp_z st')) -> n = j \/ In n (dkeys (sp_z st)))
  /\ (forall n, In n (dkeys (sp_c st')) -> n = j \/ In n (dkeys (sp_c st))).
Proof.
  unfold std_side. intros H.
  assert (HC : exists a c', cclass (cc st i) = Some a /\
     (match dget (sp_c st) i with Some g => commute_clifford g (sp_c st) i j | None => Ok (sp_c st) end) = Ok c'
     /\ (forall n, get0 c' n = if (n =? j)%nat && a then clifford_mul gZ (cc st j) else cc st n)
     /\ (NoDup (dkeys (sp_c st)) -> NoDup (dkeys c'))
     /\ (forall n, In n (dkeys c') -> n = j \/ In n (dkeys (sp_c st)))).
  { unfold cc at 1. destruct (dget (sp_c st) i) as [g|] eqn:Eg.
    - rewrite commute_clifford_cases in *. destruct (cclass g) as [[|]|] eqn:Ec.
      + exists true, (dset (sp_c st) j (clifford_mul K3 (get0 (sp_c st) j))). repeat split; auto using dset_NoDup.
        * intros n. unfold get0 at 1. rewrite dget_dset, (Nat.eqb_sym j n), andb_true_r.
          destruct (n =? j)%nat; auto.
        * intros n. rewrite dkeys_dset. tauto.
      + exists false, (sp_c st). repeat split; auto. intros n. rewrite andb_false_r. auto.
      + discriminate.
    - exists false, (sp_c st). repeat split; auto. intros n. rewrite andb_false_r. auto. }
  destruct HC as (a & c' & Hcl & E & HC & HD & HK). rewrite E in H. cbn [rbind] in H. injection H as <-.
  exists a. simpl. split; [auto|]. do 6 (split; [reflexivity|]).
  split; [|split; [|split; [|split; [|split]]]]; auto.
  - intros n. destruct (dget_ne (sp_x st) i) as [d|] eqn:Ed.
    + rewrite dz_add. apply dget_ne_Some in Ed. rewrite Ed; auto.
    + apply dget_ne_None in Ed. rewrite Ed, sxor_0_r. destruct (Nat.eqb_spec n j); subst; auto.
  - destruct (dget_ne (sp_x st) i); auto using add_NoDup.
  - intros n. destruct (dget_ne (sp_x st) i); auto. rewrite add_keys. tauto.
Qed.

(** * Invariant of the loop *)
Definition ns_of (l : list cmd) : list (nat * nstate) :=
  flat_map (fun c => match c with CN n s => [(n, s)] | _ => [] end) l.
Definition ms_of (l : list cmd) : list nat :=
  flat_map (fun c => match c with CM n _ _ _ => [n] | _ => [] end) l.
Definition exists_node (inp : list nat) (l : list cmd) (n : nat) : Prop := In n inp \/ prepared_in l n.

(** every domain refers to earlier measurements only *)
Definition ms_ordered (ms : list mcmd) : Prop :=
  forall pre m post, ms = pre ++ m :: post ->
  forall k, mem k (mc_s m) = true \/ mem k (mc_t m) = true -> In k (map mc_node pre).

Record std_inv (inp : list nat) (pre : list cmd) (st : stdp) : Prop := {
  si_in : sp_in st = inp;
  si_n : sp_n st = ns_of pre;
  si_m : map mc_node (sp_m st) = ms_of pre;
  si_ord : ms_ordered (sp_m st);
  si_eN : NoDup (sp_e st);
  si_e : forall e, In e (sp_e st) -> exists_node inp pre (fst e) /\ exists_node inp pre (snd e) /\ edge_norm e = e
           /\ (sem_ok pre = true -> fst e <> snd e);
  si_zN : NoDup (dkeys (sp_z st)); si_xN : NoDup (dkeys (sp_x st)); si_cN : NoDup (dkeys (sp_c st));
  si_zk : forall n, In n (dkeys (sp_z st)) -> live inp pre n;
  si_xk : forall n, In n (dkeys (sp_x st)) -> live inp pre n;
  si_ck : forall n, In n (dkeys (sp_c st)) -> live inp pre n;
  si_zd : forall n k, mem k (dz (sp_z st) n) = true -> measured_in pre k;
  si_xd : forall n k, mem k (dz (sp_x st) n) = true -> measured_in pre k }.

Lemma ms_of_In l n : In n (ms_of l) <-> measured_in l n.
Proof.
  unfold ms_of, measured_in. rewrite in_flat_map. split.
  - intros (c & Hc & Hn). destruct c; simpl in Hn; try tauto. destruct Hn as [<-|[]]. eauto.
  - intros (m & s & t & H). exists (CM n m s t); simpl; auto.
Qed.
Lemma ns_of_In l n : In n (map fst (ns_of l)) <-> prepared_in l n.
Proof.
  unfold ns_of, prepared_in. rewrite in_map_iff. split.
  - intros ([k s] & <- & H). apply in_flat_map in H. destruct H as (c & Hc & Hn).
    destruct c; simpl in Hn; try tauto. destruct Hn as [[= <- <-]|[]]. simpl; eauto.
  - intros (s & H). exists (n, s); split; auto. apply in_flat_map. exists (CN n s); simpl; auto.
Qed.
Lemma ms_ordered_snoc ms m : ms_ordered ms ->
  (forall k, mem k (mc_s m) = true \/ mem k (mc_t m) = true -> In k (map mc_node ms)) -> ms_ordered (ms ++ [m]).
Proof.
  intros H Hm pre m' post E k Hk.
  destruct (exists_last (l := m' :: post) ltac:(discriminate)) as (q & y & E').
  rewrite E' in E. rewrite app_assoc in E. apply app_inj_tail in E. destruct E as [E <-].
  destruct q as [|y' q]; simpl in E'.
  - injection E' as -> _. rewrite app_nil_r in E. subst. auto.
  - injection E' as -> ->. eapply H; eauto.
Qed.

Lemma commute_step_sub g s t s' t' k : commute_step g (Some (s, t)) = Some (s', t') ->
  mem k s' = true \/ mem k t' = true -> mem k s = true \/ mem k t = true.
Proof.
  unfold commute_step. intros E H. destruct g; try discriminate;
  (injection E as <- <-; rewrite ?mem_sxor in H; destruct (mem k s), (mem k t); simpl in *; intuition congruence).
Qed.
Lemma commute_domains_sub c s t s' t' k : commute_domains c s t = (s', t') ->
  mem k s' = true \/ mem k t' = true -> mem k s = true \/ mem k t = true.
Proof.
  intros E. pose proof (commute_domains_total c s t) as T. rewrite E in T. clear E. unfold commute_domains_opt in T.
  revert s t T. induction (clifford_hsz c) as [|g l IH]; intros s t T H; cbn [fold_left] in T.
  - injection T as -> ->; auto.
  - destruct (commute_step g (Some (s, t))) as [[s1 t1]|] eqn:E1.
    + eapply commute_step_sub; [exact E1|]. apply (IH s1 t1); auto.
    + rewrite commute_fold_None in T. discriminate.
Qed.

Lemma live_ext inp l c n : live inp l n -> (forall m s t, c <> CM n m s t) -> live inp (l ++ [c]) n.
Proof.
  intros [H H'] Hc. split.
  - destruct H as [H|H]; auto. right. apply prepared_app; auto.
  - rewrite measured_app, measured_one. intros [K|(m & s & t & K)]; auto. eapply Hc; eauto.
Qed.
Lemma exists_node_ext inp l l' n : exists_node inp l n -> exists_node inp (l ++ l') n.
Proof. intros [H|H]; [left; auto|right; apply prepared_app; auto]. Qed.
Lemma measured_ext l l' n : measured_in l n -> measured_in (l ++ l') n.
Proof. intros; apply measured_app; auto. Qed.
Lemma ns_of_app a b : ns_of (a ++ b) = ns_of a ++ ns_of b.
Proof. apply flat_map_app. Qed.
Lemma ms_of_app a b : ms_of (a ++ b) = ms_of a ++ ms_of b.
Proof. apply flat_map_app. Qed.
Lemma sem_ok_snoc l c : sem_ok (l ++ [c]) = sem_ok l && cmd_sem_ok c.
Proof. unfold sem_ok. rewrite forallb_app; simpl. rewrite andb_true_r; auto. Qed.
Lemma min_max_neq u v : u <> v -> Nat.min u v <> Nat.max u v.
Proof. lia. Qed.

Lemma std_inv_step inp pre st c st' : std_inv inp pre st -> cmd_ok inp pre c -> std_step st c = Ok st' ->
  std_inv inp (pre ++ [c]) st'.
Proof.
  intros [I1 I2 I3 I4 I5 I6 I7 I8 I9 I10 I11 I12 I13 I14] HC H.
  assert (E0 : forall e, In e (sp_e st) -> exists_node inp (pre ++ [c]) (fst e) /\ exists_node inp (pre ++ [c]) (snd e)
            /\ edge_norm e = e /\ (sem_ok (pre ++ [c]) = true -> fst e <> snd e)).
  { intros e He. destruct (I6 e He) as (A & B & D & F). repeat split; auto using exists_node_ext.
    rewrite sem_ok_snoc. intros K; apply andb_true_iff in K. tauto. }
  destruct c as [n s|u v|n me s t|n d|n d|n g|n d|]; cbn [std_step] in H.
  - injection H as <-. constructor; simpl; auto.
    + rewrite ns_of_app, I2; auto.
    + rewrite ms_of_app; simpl. rewrite app_nil_r; auto.
    + intros; apply live_ext; auto; discriminate.
    + intros; apply live_ext; auto; discriminate.
    + intros; apply live_ext; auto; discriminate.
    + intros; eapply measured_ext, I13; eauto.
    + intros; eapply measured_ext, I14; eauto.
  - destruct (std_side st u v) as [st1|] eqn:S1; cbn [rbind] in H; [|discriminate].
    destruct (std_side st1 v u) as [st2|] eqn:S2; cbn [rbind] in H; [|discriminate].
    injection H as <-. destruct HC as [Lu Lv].
    apply std_side_spec in S1. destruct S1 as (a & A1 & A2 & A3 & A4 & A5 & A6 & A7 & A8 & A9 & A10 & A11 & A12 & A13).
    apply std_side_spec in S2. destruct S2 as (b & B1 & B2 & B3 & B4 & B5 & B6 & B7 & B8 & B9 & B10 & B11 & B12 & B13).
    constructor; simpl.
    + congruence.
    + rewrite ns_of_app; simpl. rewrite app_nil_r; congruence.
    + rewrite ms_of_app; simpl. rewrite app_nil_r; congruence.
    + rewrite B6, A6; auto.
    + apply edge_toggle_NoDup. rewrite B5, A5; auto.
    + intros e He. apply edge_toggle_In in He. rewrite B5, A5 in He. destruct He as [->|He]; auto.
      split; [|split; [|split]].
      * simpl. destruct (Nat.min_spec u v) as [[_ ->]|[_ ->]]; apply exists_node_ext; [apply Lu|apply Lv].
      * simpl. destruct (Nat.max_spec u v) as [[_ ->]|[_ ->]]; apply exists_node_ext; [apply Lv|apply Lu].
      * apply edge_norm_idem.
      * rewrite sem_ok_snoc. intros K. apply andb_true_iff in K. destruct K as [_ K]. simpl in K.
        apply negb_true_iff, Nat.eqb_neq in K. simpl. apply min_max_neq; auto.
    + auto.
    + rewrite B7, A7; auto.
    + auto.
    + intros k Hk. apply live_ext; [|discriminate]. apply B12 in Hk. destruct Hk as [->|Hk]; auto.
      apply A12 in Hk. destruct Hk as [->|Hk]; auto.
    + intros k Hk. apply live_ext; [|discriminate]. rewrite B7, A7 in Hk; auto.
    + intros k Hk. apply live_ext; [|discriminate]. apply B13 in Hk. destruct Hk as [->|Hk]; auto.
      apply A13 in Hk. destruct Hk as [->|Hk]; auto.
    + intros k j Hj. apply measured_ext. rewrite B8 in Hj. rewrite !A8 in Hj. rewrite A7 in Hj.
      destruct (k =? u)%nat; rewrite ?mem_sxor in Hj.
      * destruct (u =? v)%nat; rewrite ?mem_sxor in Hj.
        -- destruct (mem j (dz (sp_x st) v)) eqn:Q1; [eapply I14; eauto|].
           destruct (mem j (dz (sp_x st) u)) eqn:Q2; [eapply I14; eauto|].
           destruct (mem j (dz (sp_z st) v)) eqn:Q3; [eapply I13; eauto|]. discriminate.
        -- destruct (mem j (dz (sp_x st) v)) eqn:Q1; [eapply I14; eauto|].
           destruct (mem j (dz (sp_z st) u)) eqn:Q3; [eapply I13; eauto|]. discriminate.
      * destruct (k =? v)%nat; rewrite ?mem_sxor in Hj; [|eapply I13; eauto].
        destruct (mem j (dz (sp_x st) u)) eqn:Q2; [eapply I14; eauto|].
        destruct (mem j (dz (sp_z st) v)) eqn:Q3; [eapply I13; eauto|]. discriminate.
    + intros k j Hj. apply measured_ext. rewrite B7, A7 in Hj. eapply I14; eauto.
  - injection H as <-. destruct HC as [Ln Hd].
    assert (LV : forall k, live inp pre k -> k <> n -> live inp (pre ++ [CM n me s t]) k).
    { intros k Hk Hne. apply live_ext; auto. intros ? ? ? [= ->]; auto. }
    constructor; simpl; auto using ddel_NoDup.
    + rewrite ns_of_app; simpl. rewrite app_nil_r; congruence.
    + rewrite ms_of_app, map_app, I3. simpl. f_equal. f_equal.
      destruct (dget_ne (sp_x st) n), (dget_ne (sp_z st) n), (dget (sp_c st) n); simpl; auto;
      unfold mcmd_clifford; destruct (commute_domains c _ _); auto.
    + apply ms_ordered_snoc; auto. intros k Hk. rewrite I3, ms_of_In.
      assert (Q : (mem k s = true \/ mem k t = true) \/ mem k (dz (sp_x st) n) = true \/ mem k (dz (sp_z st) n) = true).
      { set (m0 := match dget (sp_c st) n with Some g => mcmd_clifford (MC n me s t) g | None => MC n me s t end) in *.
        assert (Q0 : mem k (mc_s m0) = true \/ mem k (mc_t m0) = true -> mem k s = true \/ mem k t = true).
        { unfold m0. destruct (dget (sp_c st) n) as [g|]; auto. unfold mcmd_clifford. simpl.
          destruct (commute_domains g s t) as [s' t'] eqn:Eg. simpl. eapply commute_domains_sub; eauto. }
        destruct (dget_ne (sp_x st) n) as [dx|] eqn:Ex, (dget_ne (sp_z st) n) as [dzz|] eqn:Ez; simpl in Hk;
        try (apply dget_ne_Some in Ex; rewrite Ex); try (apply dget_ne_Some in Ez; rewrite Ez);
        rewrite ?mem_sxor in Hk;
        destruct (mem k (mc_s m0)), (mem k (mc_t m0)); auto;
        try destruct (mem k dx); try destruct (mem k dzz); simpl in Hk; intuition congruence. }
      destruct Q as [Q|[Q|Q]]; [apply Hd; auto|eapply I14; eauto|eapply I13; eauto].
    + intros k Hk. apply dkeys_ddel in Hk. apply LV; [apply I10|]; tauto.
    + intros k Hk. apply dkeys_ddel in Hk. apply LV; [apply I11|]; tauto.
    + intros k Hk. apply dkeys_ddel in Hk. apply LV; [apply I12|]; tauto.
    + intros k j. rewrite dz_del. destruct (k =? n)%nat; [rewrite mem_empty; discriminate|].
      intros; eapply measured_ext, I13; eauto.
    + intros k j. rewrite dz_del. destruct (k =? n)%nat; [rewrite mem_empty; discriminate|].
      intros; eapply measured_ext, I14; eauto.
  - destruct (commute_domains _ d sempty) as [s t] eqn:E. injection H as <-. destruct HC as [Ln Hd].
    assert (Q : forall k, mem k s = true \/ mem k t = true -> measured_in pre k).
    { intros k Hk. pose proof (commute_domains_sub _ _ _ _ _ k E Hk) as [K|K]; auto. rewrite mem_empty in K; discriminate. }
    constructor; simpl; auto.
    + rewrite ns_of_app; simpl. rewrite app_nil_r; congruence.
    + rewrite ms_of_app; simpl. rewrite app_nil_r; congruence.
    + destruct (is_empty t); auto using add_NoDup.
    + destruct (is_empty s); auto using add_NoDup.
    + intros k Hk. apply live_ext; [|discriminate]. destruct (is_empty t); auto. apply add_keys in Hk.
      destruct Hk as [->|Hk]; auto.
    + intros k Hk. apply live_ext; [|discriminate]. destruct (is_empty s); auto. apply add_keys in Hk.
      destruct Hk as [->|Hk]; auto.
    + intros; apply live_ext; auto; discriminate.
    + intros k j Hj. apply measured_ext. destruct (is_empty t); [eapply I13; eauto|].
      rewrite dz_add in Hj. destruct (k =? n)%nat; [|eapply I13; eauto]. rewrite mem_sxor in Hj.
      destruct (mem j t) eqn:Qt; [apply Q; auto|]. rewrite xorb_false_r in Hj. eapply I13; eauto.
    + intros k j Hj. apply measured_ext. destruct (is_empty s); [eapply I14; eauto|].
      rewrite dz_add in Hj. destruct (k =? n)%nat; [|eapply I14; eauto]. rewrite mem_sxor in Hj.
      destruct (mem j s) eqn:Qt; [apply Q; auto|]. rewrite xorb_false_r in Hj. eapply I14; eauto.
  - destruct (commute_domains _ sempty d) as [s t] eqn:E. injection H as <-. destruct HC as [Ln Hd].
    assert (Q : forall k, mem k s = true \/ mem k t = true -> measured_in pre k).
    { intros k Hk. pose proof (commute_domains_sub _ _ _ _ _ k E Hk) as [K|K]; auto. rewrite mem_empty in K; discriminate. }
    constructor; simpl; auto.
    + rewrite ns_of_app; simpl. rewrite app_nil_r; congruence.
    + rewrite ms_of_app; simpl. rewrite app_nil_r; congruence.
    + destruct (is_empty t); auto using add_NoDup.
    + destruct (is_empty s); auto using add_NoDup.
    + intros k Hk. apply live_ext; [|discriminate]. destruct (is_empty t); auto. apply add_keys in Hk.
      destruct Hk as [->|Hk]; auto.
    + intros k Hk. apply live_ext; [|discriminate]. destruct (is_empty s); auto. apply add_keys in Hk.
      destruct Hk as [->|Hk]; auto.
    + intros; apply live_ext; auto; discriminate.
    + intros k j Hj. apply measured_ext. destruct (is_empty t); [eapply I13; eauto|].
      rewrite dz_add in Hj. destruct (k =? n)%nat; [|eapply I13; eauto]. rewrite mem_sxor in Hj.
      destruct (mem j t) eqn:Qt; [apply Q; auto|]. rewrite xorb_false_r in Hj. eapply I13; eauto.
    + intros k j Hj. apply measured_ext. destruct (is_empty s); [eapply I14; eauto|].
      rewrite dz_add in Hj. destruct (k =? n)%nat; [|eapply I14; eauto]. rewrite mem_sxor in Hj.
      destruct (mem j s) eqn:Qt; [apply Q; auto|]. rewrite xorb_false_r in Hj. eapply I14; eauto.
  - injection H as <-. constructor; simpl; auto using dset_NoDup.
    + rewrite ns_of_app; simpl. rewrite app_nil_r; congruence.
    + rewrite ms_of_app; simpl. rewrite app_nil_r; congruence.
    + intros; apply live_ext; auto; discriminate.
    + intros; apply live_ext; auto; discriminate.
    + intros k Hk. apply live_ext; [|discriminate]. apply dkeys_dset in Hk. destruct Hk as [->|Hk]; auto.
    + intros; eapply measured_ext, I13; eauto.
    + intros; eapply measured_ext, I14; eauto.
  - injection H as <-. constructor; simpl; auto.
    + rewrite ns_of_app; simpl. rewrite app_nil_r; congruence.
    + rewrite ms_of_app; simpl. rewrite app_nil_r; congruence.
    + intros; apply live_ext; auto; discriminate.
    + intros; apply live_ext; auto; discriminate.
    + intros; apply live_ext; auto; discriminate.
    + intros; eapply measured_ext, I13; eauto.
    + intros; eapply measured_ext, I14; eauto.
  - injection H as <-. constructor; simpl; auto.
    + rewrite ns_of_app; simpl. rewrite app_nil_r; congruence.
    + rewrite ms_of_app; simpl. rewrite app_nil_r; congruence.
    + intros; apply live_ext; auto; discriminate.
    + intros; apply live_ext; auto; discriminate.
    + intros; apply live_ext; auto; discriminate.
    + intros; eapply measured_ext, I13; eauto.
    + intros; eapply measured_ext, I14; eauto.
Qed.

Lemma std_fold_snoc l c st : rfold std_step (l ++ [c]) st = rbind (rfold std_step l st) (fun st' => std_step st' c).
Proof. rewrite rfold_app. destruct (rfold std_step l st); simpl; auto. destruct (std_step a c); auto. Qed.

Lemma std_inv_fold p l st : runnable (p_in p) l -> rfold std_step l (std_init p) = Ok st -> std_inv (p_in p) l st.
Proof.
  revert st. induction l as [|c l IH] using rev_ind; intros st HR H.
  - simpl in H. injection H as <-. constructor; simpl; auto; try tauto; try constructor.
    + intros pre m post E. destruct pre; discriminate.
    + intros n k. unfold dz; simpl. rewrite mem_empty; discriminate.
    + intros n k. unfold dz; simpl. rewrite mem_empty; discriminate.
  - apply runnable_snoc in HR. destruct HR as [HR HC]. rewrite std_fold_snoc in H.
    destruct (rfold std_step l (std_init p)) as [st0|] eqn:E; [|discriminate]. simpl in H.
    eapply std_inv_step; eauto.
Qed.
Lemma from_pattern_inv p st : from_pattern p = Ok st -> runnable (p_in p) (p_seq p) /\ std_inv (p_in p) (p_seq p) st.
Proof.
  unfold from_pattern. destruct (check_runnability p) as [[]|] eqn:E; [|discriminate]. simpl. intros H.
  apply check_runnability_spec in E. split; auto. apply std_inv_fold; auto.
Qed.

(** * Well-formed standardized patterns and runnability *)
Definition std_node (st : stdp) (n : nat) : Prop := In n (sp_in st) \/ In n (map fst (sp_n st)).
Definition std_meas (st : stdp) (n : nat) : Prop := In n (map mc_node (sp_m st)).
Record std_wf (st : stdp) : Prop := {
  sw_nN : NoDup (map fst (sp_n st));
  sw_nin : forall n, In n (map fst (sp_n st)) -> ~ In n (sp_in st);
  sw_eN : NoDup (sp_e st);
  sw_e : forall e, In e (sp_e st) -> std_node st (fst e) /\ std_node st (snd e) /\ edge_norm e = e;
  sw_mN : NoDup (map mc_node (sp_m st));
  sw_mn : forall n, std_meas st n -> std_node st n;
  sw_ord : ms_ordered (sp_m st);
  sw_zN : NoDup (dkeys (sp_z st)); sw_xN : NoDup (dkeys (sp_x st)); sw_cN : NoDup (dkeys (sp_c st));
  sw_zk : forall n, In n (dkeys (sp_z st)) -> std_node st n /\ ~ std_meas st n;
  sw_xk : forall n, In n (dkeys (sp_x st)) -> std_node st n /\ ~ std_meas st n;
  sw_ck : forall n, In n (dkeys (sp_c st)) -> std_node st n /\ ~ std_meas st n;
  sw_zd : forall n k, mem k (dz (sp_z st) n) = true -> std_meas st k;
  sw_xd : forall n k, mem k (dz (sp_x st) n) = true -> std_meas st k }.

Lemma runnable_app inp l1 l2 : runnable inp (l1 ++ l2) <->
  runnable inp l1 /\ (forall pre c post, l2 = pre ++ c :: post -> cmd_ok inp (l1 ++ pre) c).
Proof.
  split.
  - intros H; split; [eapply runnable_app_l; eauto|]. intros pre c post ->. apply (H (l1 ++ pre) c post).
    rewrite <- app_assoc; auto.
  - intros [H1 H2]. revert H2. induction l2 as [|c l2 IH] using rev_ind; intros H2; [rewrite app_nil_r; auto|].
    rewrite app_assoc. apply runnable_snoc. split.
    + apply IH. intros pre c' post ->. apply (H2 pre c' (post ++ [c])). rewrite <- app_assoc; auto.
    + apply (H2 l2 c []); auto.
Qed.
Lemma runnable_NoDup inp l : runnable inp l -> NoDup (map fst (ns_of l)) /\ NoDup (ms_of l)
  /\ (forall n, In n (map fst (ns_of l)) -> ~ In n inp) /\ (forall n, In n (ms_of l) -> exists_node inp l n).
Proof.
  induction l as [|c l IH] using rev_ind; intros H; [simpl; repeat split; try constructor; tauto|].
  apply runnable_snoc in H. destruct H as [HR HC]. destruct (IH HR) as (A & B & D & F).
  rewrite ns_of_app, ms_of_app, map_app.
  assert (F' : forall n, In n (ms_of l) -> exists_node inp (l ++ [c]) n) by (intros; apply exists_node_ext; auto).
  destruct c; simpl; rewrite ?app_nil_r; repeat split; auto.
  - destruct HC as [C1 C2]. apply NoDup_app; auto; [constructor; auto; constructor|]. intros x Hx [<-|[]].
    apply C2, ns_of_In; auto.
  - destruct HC as [C1 C2]. intros k Hk. apply in_app_or in Hk. destruct Hk as [Hk|[<-|[]]]; auto.
  - destruct HC as [[C1 C2] _]. apply NoDup_app; auto; [constructor; auto; constructor|]. intros x Hx [<-|[]].
    apply C2, ms_of_In; auto.
  - destruct HC as [[C1 C2] _]. intros k Hk. apply in_app_or in Hk. destruct Hk as [Hk|[<-|[]]]; auto.
    apply exists_node_ext; auto.
Qed.
Lemma std_inv_wf inp l st : runnable inp l -> std_inv inp l st -> std_wf st.
Proof.
  intros HR [I1 I2 I3 I4 I5 I6 I7 I8 I9 I10 I11 I12 I13 I14].
  destruct (runnable_NoDup _ _ HR) as (A & B & D & F).
  assert (EN : forall n, exists_node inp l n -> std_node st n).
  { intros n [K|K]; [left; congruence|right]. rewrite I2. apply ns_of_In; auto. }
  assert (EM : forall n, measured_in l n <-> std_meas st n).
  { intros n. unfold std_meas. rewrite I3, ms_of_In. tauto. }
  assert (EL : forall n, live inp l n -> std_node st n /\ ~ std_meas st n).
  { intros n [K1 K2]. split; [apply EN; auto|]. rewrite <- EM; auto. }
  constructor; auto.
  - rewrite I2; auto.
  - rewrite I1, I2; auto.
  - intros e He. destruct (I6 e He) as (Q1 & Q2 & Q3 & Q4). auto.
  - rewrite I3; auto.
  - unfold std_meas. rewrite I3. auto.
  - intros n k Hk. apply EM. eapply I13; eauto.
  - intros n k Hk. apply EM. eapply I14; eauto.
Qed.

Lemma map_split {A B} (f : A -> B) l pre c post : map f l = pre ++ c :: post ->
  exists pre' x post', l = pre' ++ x :: post' /\ pre = map f pre' /\ c = f x /\ post = map f post'.
Proof.
  revert pre; induction l as [|a l IH]; intros pre H; [destruct pre; discriminate|].
  destruct pre as [|b pre]; simpl in H.
  - injection H as <- <-. exists [], a, l. auto.
  - injection H as <- H. destruct (IH pre H) as (p' & x & q' & -> & -> & -> & ->).
    exists (a :: p'), x, q'. auto.
Qed.
Lemma ms_of_nil_map {A} (f : A -> cmd) l : (forall a, ms_of [f a] = []) -> ms_of (map f l) = [].
Proof. intros H. induction l as [|a l IH]; cbn [map]; auto. change (ms_of ([f a] ++ map f l) = []). rewrite ms_of_app, H; auto. Qed.
Lemma ms_of_mcmds l : ms_of (map mcmd_cmd l) = map mc_node l.
Proof. induction l; simpl; f_equal; auto. Qed.
Lemma ns_of_ns l : ns_of (map (fun p => CN (fst p) (snd p)) l) = l.
Proof. induction l as [|[n s] l IH]; simpl; f_equal; auto. Qed.
Lemma ns_of_nil_map {A} (f : A -> cmd) l : (forall a, ns_of [f a] = []) -> ns_of (map f l) = [].
Proof. intros H. induction l as [|a l IH]; cbn [map]; auto. change (ns_of ([f a] ++ map f l) = []). rewrite ns_of_app, H; auto. Qed.
Ltac nsms := rewrite ?ns_of_app, ?ms_of_app, ?ns_of_ns, ?ms_of_mcmds;
  rewrite ?(ns_of_nil_map (fun e : nat * nat => CE (fst e) (snd e))) by auto;
  rewrite ?(ns_of_nil_map mcmd_cmd) by auto;
  rewrite ?(ns_of_nil_map (fun p : nat * nset => CZ (fst p) (snd p))) by auto;
  rewrite ?(ns_of_nil_map (fun p : nat * nset => CX (fst p) (snd p))) by auto;
  rewrite ?(ns_of_nil_map (fun p : nat * clifford => CC (fst p) (snd p))) by auto;
  rewrite ?(ms_of_nil_map (fun p : nat * nstate => CN (fst p) (snd p))) by auto;
  rewrite ?(ms_of_nil_map (fun e : nat * nat => CE (fst e) (snd e))) by auto;
  rewrite ?(ms_of_nil_map (fun p : nat * nset => CZ (fst p) (snd p))) by auto;
  rewrite ?(ms_of_nil_map (fun p : nat * nset => CX (fst p) (snd p))) by auto;
  rewrite ?(ms_of_nil_map (fun p : nat * clifford => CC (fst p) (snd p))) by auto;
  rewrite ?map_app, ?app_nil_r, ?app_nil_l.

Lemma std_cmds_ns st es : ns_of (std_cmds st es) = sp_n st.
Proof. unfold std_cmds. nsms. auto. Qed.
Lemma std_cmds_ms st es : ms_of (std_cmds st es) = map mc_node (sp_m st).
Proof. unfold std_cmds. nsms. auto. Qed.

Lemma std_runnable st es : std_wf st -> (forall e, In e es -> std_node st (fst e) /\ std_node st (snd e)) ->
  runnable (sp_in st) (std_cmds st es).
Proof.
  intros W He. unfold std_cmds. rewrite !app_assoc.
  assert (LV : forall l n, ns_of l = sp_n st -> (forall k, In k (ms_of l) -> std_meas st k) ->
     std_node st n -> ~ std_meas st n -> live (sp_in st) l n).
  { intros l n H1 H2 [H3|H3] H4; split.
    - auto. - rewrite <- ms_of_In; auto.
    - right. rewrite <- ns_of_In, H1; auto. - rewrite <- ms_of_In; auto. }
  repeat (apply runnable_app; split).
  - (* N *)
    apply (runnable_app (sp_in st) [] _). split; [apply runnable_nil|].
    intros pre c post E. apply map_split in E. destruct E as (p' & [n s] & q' & E & -> & -> & ->). simpl.
    pose proof (sw_nN st W) as ND. pose proof (sw_nin st W) as NI. rewrite E in ND, NI.
    rewrite map_app in ND, NI. simpl in ND, NI. split.
    + apply NI. apply in_or_app; simpl; auto.
    + rewrite <- ns_of_In, ns_of_ns. apply NoDup_remove_2 in ND. intros K; apply ND, in_or_app; auto.
  - intros pre c post E. apply map_split in E. destruct E as (p' & [u v] & q' & E & -> & -> & ->). simpl.
    destruct (He (u, v)) as [H1 H2]; [rewrite E; apply in_or_app; simpl; auto|]. simpl in H1, H2.
    split.
    + split; [destruct H1; auto; right; rewrite <- ns_of_In; nsms; auto|]. rewrite <- ms_of_In; nsms; auto.
    + split; [destruct H2; auto; right; rewrite <- ns_of_In; nsms; auto|]. rewrite <- ms_of_In; nsms; auto.
  - intros pre c post E. apply map_split in E. destruct E as (p' & m & q' & E & -> & -> & ->). simpl.
    pose proof (sw_mN st W) as ND. rewrite E in ND. rewrite map_app in ND. simpl in ND.
    split.
    + split.
      * destruct (sw_mn st W (mc_node m)) as [K|K]; auto.
        -- unfold std_meas. rewrite E, map_app. apply in_or_app; simpl; auto.
        -- right. rewrite <- ns_of_In. nsms. auto.
      * rewrite <- ms_of_In. nsms. apply NoDup_remove_2 in ND. intros K; apply ND, in_or_app; auto.
    + intros k Hk. rewrite <- ms_of_In. nsms. eapply (sw_ord st W); eauto.
  - intros pre c post E. apply map_split in E. destruct E as (p' & [n d] & q' & E & -> & -> & ->). simpl.
    assert (Hin : In (n, d) (sp_z st)) by (rewrite E; apply in_or_app; simpl; auto).
    destruct (sw_zk st W n) as [K1 K2]; [apply (in_map fst _ _ Hin)|]. split.
    + apply LV; auto; nsms; auto.
    + intros k Hk. rewrite <- ms_of_In. nsms. apply (sw_zd st W n).
      rewrite (dz_In _ _ (sw_zN st W) d); auto.
  - intros pre c post E. apply map_split in E. destruct E as (p' & [n d] & q' & E & -> & -> & ->). simpl.
    assert (Hin : In (n, d) (sp_x st)) by (rewrite E; apply in_or_app; simpl; auto).
    destruct (sw_xk st W n) as [K1 K2]; [apply (in_map fst _ _ Hin)|]. split.
    + apply LV; auto; nsms; auto.
    + intros k Hk. rewrite <- ms_of_In. nsms. apply (sw_xd st W n).
      rewrite (dz_In _ _ (sw_xN st W) d); auto.
  - intros pre c post E. apply map_split in E. destruct E as (p' & [n d] & q' & E & -> & -> & ->). simpl.
    assert (Hin : In (n, d) (sp_c st)) by (rewrite E; apply in_or_app; simpl; auto).
    destruct (sw_ck st W n) as [K1 K2]; [apply (in_map fst _ _ Hin)|].
    apply LV; auto; nsms; auto.
Qed.
Lemma edge_enum_nodes st es : std_wf st -> edge_enum st es -> forall e, In e es -> std_node st (fst e) /\ std_node st (snd e).
Proof.
  intros W H e He. assert (K : In (edge_norm e) (sp_e st)).
  { eapply Permutation_in; [exact H|]. apply in_map; auto. }
  destruct (sw_e st W _ K) as (A & B & _). destruct (edge_norm_cases e) as [Q|Q]; rewrite Q in A, B; auto.
Qed.

(** * Semantics *)
Definition prep_ops (ns : list (nat * nstate)) : list op := map (fun p => OPrep (nstate_vec (snd p)) (fst p)) ns.
Definition cz_ops (es : list (nat * nat)) : list op := map (fun e => OCz (fst e) (snd e)) es.
Definition m_ops (o : nat -> bool) (ms : list mcmd) : list op := seq_ops o (map mcmd_cmd ms).
(** the pending correction of a node *)
Definition pend (o : nat -> bool) (st : stdp) (n : nat) : mat2 :=
  mmul (clifford_mat (cc st n)) (mXZ (parity o (dz (sp_x st) n)) (parity o (dz (sp_z st) n))).

Lemma pend_id o st n : ~ In n (dkeys (sp_z st)) -> ~ In n (dkeys (sp_x st)) -> ~ In n (dkeys (sp_c st)) -> pend o st n = mid.
Proof.
  intros H1 H2 H3. unfold pend, cc. rewrite !dz_notin by auto. apply dget_None in H3. rewrite H3.
  rewrite clifford_mat_I, !parity_empty. unfold mXZ; simpl. rewrite !mmul_1_l; auto.
Qed.
Lemma seq_ops_cz o es : seq_ops o (map (fun e => CE (fst e) (snd e)) es) = cz_ops es.
Proof. induction es; simpl; f_equal; auto. Qed.
Lemma seq_ops_prep o ns : seq_ops o (map (fun p => CN (fst p) (snd p)) ns) = prep_ops ns.
Proof. induction ns; simpl; f_equal; auto. Qed.
Lemma seq_ops_zs o (d : dict nset) : seq_ops o (map (fun p => CZ (fst p) (snd p)) d) ≈ dops (fun s => mpow mZ (parity o s)) d.
Proof.
  induction d as [|[n s] d IH]; simpl; [reflexivity|]. rewrite IH. destruct (parity o s); simpl; [reflexivity|].
  symmetry. apply (leq_app_r [OApp1 mid n] []). apply app1_id.
Qed.
Lemma seq_ops_xs o (d : dict nset) : seq_ops o (map (fun p => CX (fst p) (snd p)) d) ≈ dops (fun s => mpow mX (parity o s)) d.
Proof.
  induction d as [|[n s] d IH]; simpl; [reflexivity|]. rewrite IH. destruct (parity o s); simpl; [reflexivity|].
  symmetry. apply (leq_app_r [OApp1 mid n] []). apply app1_id.
Qed.
Lemma seq_ops_cs o (d : dict clifford) : seq_ops o (map (fun p => CC (fst p) (snd p)) d) = dops clifford_mat d.
Proof. induction d; simpl; f_equal; auto. Qed.

(** corrections as one layer *)
Lemma corr_layer o st L : NoDup L -> NoDup (dkeys (sp_z st)) -> NoDup (dkeys (sp_x st)) -> NoDup (dkeys (sp_c st)) ->
  (forall n, In n (dkeys (sp_z st)) -> In n L) -> (forall n, In n (dkeys (sp_x st)) -> In n L) ->
  (forall n, In n (dkeys (sp_c st)) -> In n L) ->
  seq_ops o (map (fun p => CZ (fst p) (snd p)) (sp_z st)) ++ seq_ops o (map (fun p => CX (fst p) (snd p)) (sp_x st))
    ++ seq_ops o (map (fun p => CC (fst p) (snd p)) (sp_c st)) ≈ layer L (pend o st).
Proof.
  intros NL N1 N2 N3 H1 H2 H3. rewrite seq_ops_zs, seq_ops_xs, seq_ops_cs.
  rewrite (dops_layer _ (sp_z st) L), (dops_layer _ (sp_x st) L), (dops_layer _ (sp_c st) L) by auto.
  rewrite app_assoc, layer_fuse, layer_fuse by auto. apply leq_eq, layer_eq. intros n _.
  unfold pend, mXZ, dval, dz, cc.
  destruct (dget (sp_c st) n), (dget (sp_x st) n), (dget (sp_z st) n); rewrite ?clifford_mat_I, ?parity_empty; reflexivity.
Qed.

Lemma cz_ops_perm es es' : Permutation (map edge_norm es) es' -> cz_ops es ≈ cz_ops es'.
Proof.
  intros P. transitivity (cz_ops (map edge_norm es)).
  - clear P. induction es as [|[u v] es IH]; simpl; [reflexivity|].
    rewrite IH. apply (leq_app_r [_] [_]).
    destruct (edge_norm_cases (u, v)) as [Q|Q]; injection Q as Q1 Q2; rewrite Q1, Q2; [reflexivity|].
    apply leq_den. intros; cbn [den]. apply cz_sym.
  - apply leq_den. apply den_comm_perm; [apply Permutation_map; auto|].
    intros p q psi Hp Hq. apply in_map_iff in Hp, Hq. destruct Hp as (a & <- & _), Hq as (b & <- & _). apply cz_comm.
Qed.
Lemma cz_toggle u v es : NoDup es -> cz_ops es ++ [OCz u v] ≈ cz_ops (edge_toggle (edge_norm (u, v)) es).
Proof.
  intros ND. set (e := edge_norm (u, v)).
  assert (E1 : [OCz u v] ≈ cz_ops [e]) by (symmetry; symmetry; apply (cz_ops_perm [(u, v)] [e]); apply Permutation_refl).
  rewrite E1. unfold edge_toggle. destruct (existsb (edge_eqb e) es) eqn:Ee.
  - apply existsb_exists in Ee. destruct Ee as (x & Hx & Hxe). apply edge_eqb_eq in Hxe. subst x.
    assert (P : Permutation es (filter (fun x => negb (edge_eqb e x)) es ++ [e])).
    { apply NoDup_Permutation; auto.
      - apply NoDup_app; auto using NoDup_filter; [constructor; auto; constructor|].
        intros x Hx' [<-|[]]. apply filter_In in Hx'. destruct Hx' as [_ Hx'].
        assert (edge_eqb e e = true) by (apply edge_eqb_eq; auto). rewrite H in Hx'; discriminate.
      - intros x. rewrite in_app_iff, filter_In. simpl. destruct (edge_eqb e x) eqn:Q.
        + apply edge_eqb_eq in Q. subst. tauto.
        + simpl. split; [auto|]. intros [[? _]|[->|[]]]; auto. }
    set (es' := filter _ es) in *.
    assert (P2 : cz_ops es ≈ cz_ops (es' ++ [e])).
    { apply leq_den. apply den_comm_perm; [apply Permutation_map; auto|].
      intros p q psi Hp Hq. apply in_map_iff in Hp, Hq. destruct Hp as (a & <- & _), Hq as (b & <- & _). apply cz_comm. }
    rewrite P2. unfold cz_ops. rewrite map_app, <- app_assoc. simpl.
    rewrite <- (app_nil_r (map _ es')) at 2. apply leq_app_l.
    apply leq_den. intros; cbn [den]. apply cz_cz.
  - unfold cz_ops. rewrite map_app. reflexivity.
Qed.

Lemma m_ops_onodes o ms p n : In p (m_ops o ms) -> In n (onodes p) -> In n (map mc_node ms).
Proof.
  unfold m_ops, seq_ops. rewrite in_flat_map. intros (c & Hc & Hp) Hn. apply in_map_iff in Hc.
  destruct Hc as (m & <- & Hm). simpl in Hp. destruct Hp as [<-|[]]. simpl in Hn. destruct Hn as [<-|[]]. apply in_map; auto.
Qed.
Lemma comm_op_l l p : (forall q, In q l -> odisj q p) -> l ++ [p] ≈ p :: l.
Proof. intros H. symmetry. apply comm1l. intros q Hq. apply odisj_sym; auto. Qed.

Lemma mcmd_clifford_ops o n me s t g : forall m', m' = mcmd_clifford (MC n me s t) g ->
  [OApp1 (clifford_mat g) n] ++ seq_ops o [CM n me s t] ≈ seq_ops o [mcmd_cmd m'] /\ mc_node m' = n.
Proof.
  intros m' ->. unfold mcmd_clifford. simpl mc_s; simpl mc_t. destruct (commute_domains g s t) as [s' t'] eqn:E.
  split; [|reflexivity]. unfold mcmd_cmd; simpl mc_node; simpl mc_meas; simpl mc_s; simpl mc_t.
  rewrite !meas_ops_XZ. cbn [app].
  change [OApp1 (clifford_mat g) n; ?x; ?y] with ([OApp1 (clifford_mat g) n; x] ++ [y]).
  rewrite app1_fuse.
  rewrite (app1_meqp _ _ n (commute_domains_mat g s t s' t' o E)).
  rewrite <- app1_fuse. cbn [app]. apply leq_cons. rewrite app1_meas. apply meas_veqp, veqp_sym, mvec_clifford.
Qed.
Lemma meas_absorb o n me s t s' t' :
  [OApp1 (mXZ (parity o s') (parity o t')) n] ++ seq_ops o [CM n me s t] ≈ seq_ops o [CM n me (sxor s s') (sxor t t')].
Proof.
  rewrite !meas_ops_XZ. cbn [app].
  change [OApp1 ?a n; OApp1 ?b n; ?y] with ([OApp1 a n; OApp1 b n] ++ [y]). rewrite app1_fuse.
  rewrite (app1_meqp _ _ n (mXZ_mul _ _ _ _)). rewrite !parity_sxor. reflexivity.
Qed.
Lemma std_meas_ops o st n me s t :
  let m0 := match dget (sp_c st) n with Some g => mcmd_clifford (MC n me s t) g | None => MC n me s t end in
  let m1 := match dget_ne (sp_z st) n with Some d => MC (mc_node m0) (mc_meas m0) (mc_s m0) (sxor (mc_t m0) d) | None => m0 end in
  let m2 := match dget_ne (sp_x st) n with Some d => MC (mc_node m1) (mc_meas m1) (sxor (mc_s m1) d) (mc_t m1) | None => m1 end in
  [OApp1 (pend o st n) n] ++ seq_ops o [CM n me s t] ≈ seq_ops o [mcmd_cmd m2].
Proof.
  intros m0 m1 m2. unfold pend. rewrite <- app1_fuse.
  assert (E0 : [OApp1 (clifford_mat (cc st n)) n] ++ seq_ops o [CM n me s t] ≈ seq_ops o [mcmd_cmd m0] /\ mc_node m0 = n).
  { unfold m0, cc. destruct (dget (sp_c st) n) as [g|].
    - apply mcmd_clifford_ops; auto.
    - split; auto. rewrite clifford_mat_I, app1_id. reflexivity. }
  destruct E0 as [E0 N0].
  change ([OApp1 ?a n; OApp1 ?b n] ++ ?l) with ([OApp1 a n] ++ [OApp1 b n] ++ l). rewrite E0.
  assert (E2 : m2 = MC n (mc_meas m0) (sxor (mc_s m0) (dz (sp_x st) n)) (sxor (mc_t m0) (dz (sp_z st) n))).
  { unfold m2, m1. clear m2 m1. clearbody m0. clear E0. destruct m0 as [n0 me0 s0 t0]. simpl in N0. subst n0.
    destruct (dget_ne (sp_x st) n) eqn:Ex, (dget_ne (sp_z st) n) eqn:Ez;
    try (apply dget_ne_Some in Ex); try (apply dget_ne_Some in Ez);
    try (apply dget_ne_None in Ex); try (apply dget_ne_None in Ez); rewrite Ex, Ez, ?sxor_0_r; simpl; rewrite ?sxor_0_r; auto. }
  rewrite E2. unfold mcmd_cmd; simpl mc_node; simpl mc_meas; simpl mc_s; simpl mc_t. rewrite N0. apply meas_absorb.
Qed.

(** one E command against the pending corrections *)
Lemma std_E_layer o st u v st1 st2 L : NoDup L -> In u L -> In v L -> u <> v ->
  std_side st u v = Ok st1 -> std_side st1 v u = Ok st2 ->
  layer L (pend o st) ++ [OCz u v] ≈ OCz u v :: layer L (pend o st2).
Proof.
  intros NL Hu Hv Hne S1 S2.
  apply std_side_spec in S1. destruct S1 as (a & A1 & A2 & A3 & A4 & A5 & A6 & A7 & A8 & A9 & _).
  apply std_side_spec in S2. destruct S2 as (b & B1 & B2 & B3 & B4 & B5 & B6 & B7 & B8 & B9 & _).
  assert (Cb : cclass (cc st v) = Some b).
  { rewrite A9, Nat.eqb_refl in B1. simpl in B1. destruct a; auto.
    destruct (cclass (cc st v)) as [b'|] eqn:Q.
    - rewrite (cclass_mulZ _ _ Q) in B1. auto.
    - destruct (cc st v); try discriminate Q; vm_compute in B1; discriminate. }
  pose proof (cclass_da _ _ A1) as Da. pose proof (cclass_da _ _ Cb) as Db.
  set (xu := parity o (dz (sp_x st) u)). set (xv := parity o (dz (sp_x st) v)).
  assert (DU : da (xorb a xu) (pend o st u)) by (apply da_mul; [auto|apply da_XZ]).
  assert (DV : da (xorb b xv) (pend o st v)) by (apply da_mul; [auto|apply da_XZ]).
  assert (Hvu : (v =? u)%nat = false) by (apply Nat.eqb_neq; auto).
  assert (Huv : (u =? v)%nat = false) by (apply Nat.eqb_neq; auto).
  assert (GEN : forall (c0 c1 : clifford) (k : bool) x z x' (q : bool), da q (clifford_mat c0) ->
     c1 = (if k then clifford_mul gZ c0 else c0) ->
     mmul (clifford_mat c1) (mXZ (parity o x) (parity o (sxor z x'))) ~=
     mmul (mpow mZ (xorb k (parity o x'))) (mmul (clifford_mat c0) (mXZ (parity o x) (parity o z)))).
  { intros c0 c1 k x z x' q Hq ->. rewrite parity_sxor.
    assert (K1 : clifford_mat (if k then clifford_mul gZ c0 else c0) ~= mmul (mpow mZ k) (clifford_mat c0)).
    { destruct k; simpl; [|rewrite mmul_1_l; apply meqp_refl]. apply meqp_sym. rewrite <- clifford_mat_Z. apply clifford_mul_mat. }
    rewrite <- mpow_xor by apply mZ_sq.
    eapply meqp_trans; [apply meqp_mul; [exact K1|apply meqp_refl]|].
    rewrite <- !mmul_assoc. apply meqp_mul; [apply meqp_refl|].
    assert (DQ : da (xorb q (parity o x)) (mmul (clifford_mat c0) (mXZ (parity o x) (parity o z)))) by (apply da_mul; [auto|apply da_XZ]).
    apply meqp_sym. eapply meqp_trans; [apply (da_Z_comm _ _ _ DQ)|].
    apply meqp_eq. rewrite <- !mmul_assoc. f_equal. unfold mXZ. rewrite <- mmul_assoc. rewrite mpow_xor by apply mZ_sq. reflexivity. }
  assert (EU : pend o st2 u ~= mmul (mpow mZ (xorb b xv)) (pend o st u)).
  { unfold pend. rewrite B7, A7, B8, Nat.eqb_refl, A8, A7, Huv. eapply GEN; [exact Da|].
    rewrite B9, Nat.eqb_refl, A9, Huv. simpl. destruct b; auto. }
  assert (EV : pend o st2 v ~= mmul (mpow mZ (xorb a xu)) (pend o st v)).
  { unfold pend. rewrite B7, A7, B8, Hvu, A8, Nat.eqb_refl. eapply GEN; [exact Db|].
    rewrite B9, Hvu. simpl. rewrite A9, Nat.eqb_refl. simpl. destruct a; auto. }
  assert (EO : forall k, k <> u -> k <> v -> pend o st2 k = pend o st k).
  { intros k K1 K2. apply Nat.eqb_neq in K1, K2. unfold pend. rewrite B7, A7, B8, K1, A8, K2, B9, K1. simpl. rewrite A9, K2. reflexivity. }
  set (F := pend o st) in *. set (G := pend o st2) in *.
  set (F0 := fupd (fupd F v mid) u mid).
  assert (X1 : layer L F ≈ layer L F0 ++ [OApp1 (F u) u; OApp1 (F v) v]).
  { rewrite (layer_split_r L F v) by auto. rewrite (layer_split_r L (fupd F v mid) u) by auto.
    rewrite fupd_other by auto. rewrite <- app_assoc. reflexivity. }
  assert (X2 : layer L G ≈ layer L F0 ++ [OApp1 (mmul (mpow mZ (xorb b xv)) (F u)) u; OApp1 (mmul (mpow mZ (xorb a xu)) (F v)) v]).
  { rewrite (layer_ext L G (fupd (fupd F v (mmul (mpow mZ (xorb a xu)) (F v))) u (mmul (mpow mZ (xorb b xv)) (F u)))).
    - rewrite (layer_split_r L _ v) by auto. rewrite (layer_split_r L (fupd _ v mid) u) by auto.
      rewrite (fupd_other _ u _ v), fupd_same by auto. rewrite (fupd_other _ v _ u), fupd_same by auto.
      rewrite <- app_assoc. cbn [app]. erewrite layer_eq; [reflexivity|].
      intros k _. unfold F0, fupd. destruct (k =? u)%nat, (k =? v)%nat; auto.
    - intros k _. unfold fupd. destruct (Nat.eqb_spec k u); [subst; auto|]. destruct (Nat.eqb_spec k v); [subst; auto|].
      rewrite EO by auto. apply meqp_refl. }
  rewrite X1, X2, <- app_assoc. cbn [app]. rewrite (cz_da _ _ _ _ _ _ DU DV Hne).
  change (layer L F0 ++ OCz u v :: ?l) with (layer L F0 ++ [OCz u v] ++ l). rewrite app_assoc.
  rewrite <- (layer_comm L F0 (OCz u v)); [reflexivity|].
  intros k _ Hk. unfold F0, fupd. destruct Hk as [<-|[<-|[]]]; rewrite Nat.eqb_refl; auto. destruct (v =? u)%nat; auto.
Qed.

Lemma commute_XZ_pend o c s0 t0 s t x z : commute_domains c s0 t0 = (s, t) ->
  mmul (mXZ (parity o s0) (parity o t0)) (mmul (clifford_mat c) (mXZ (parity o x) (parity o z)))
  ~= mmul (clifford_mat c) (mXZ (parity o (sxor x s)) (parity o (sxor z t))).
Proof.
  intros E. rewrite mmul_assoc.
  eapply meqp_trans; [apply meqp_mul; [apply (commute_domains_mat _ _ _ _ _ o E)|apply meqp_refl]|].
  rewrite <- mmul_assoc. apply meqp_mul; [apply meqp_refl|].
  eapply meqp_trans; [apply mXZ_mul|]. rewrite !parity_sxor, (xorb_comm (parity o s)), (xorb_comm (parity o t)). apply meqp_refl.
Qed.
Lemma std_XZ_pend o st n s0 t0 s t : commute_domains (cc st n) s0 t0 = (s, t) ->
  let z := if is_empty t then sp_z st else add_correction_domain (sp_z st) n t in
  let x := if is_empty s then sp_x st else add_correction_domain (sp_x st) n s in
  let st' := Std (sp_in st) (sp_out st) (sp_n st) (sp_e st) (sp_m st) z x (sp_c st) in
  forall k, pend o st' k ~= fupd (pend o st) n (mmul (mXZ (parity o s0) (parity o t0)) (pend o st n)) k.
Proof.
  intros E z x st' k.
  assert (Hz : dz z k = if (k =? n)%nat then sxor (dz (sp_z st) n) t else dz (sp_z st) k).
  { unfold z. destruct (is_empty t) eqn:Q; [|apply dz_add]. apply is_empty_spec in Q. subst t. rewrite sxor_0_r.
    destruct (Nat.eqb_spec k n); subst; auto. }
  assert (Hx : dz x k = if (k =? n)%nat then sxor (dz (sp_x st) n) s else dz (sp_x st) k).
  { unfold x. destruct (is_empty s) eqn:Q; [|apply dz_add]. apply is_empty_spec in Q. subst s. rewrite sxor_0_r.
    destruct (Nat.eqb_spec k n); subst; auto. }
  unfold pend at 1. unfold st'; simpl sp_x; simpl sp_z. rewrite Hx, Hz. unfold fupd.
  change (cc _ k) with (cc st k). destruct (Nat.eqb_spec k n).
  - subst k. apply meqp_sym. unfold pend. apply commute_XZ_pend; auto.
  - apply meqp_refl.
Qed.

Definition std_ops (o : nat -> bool) (L : list nat) (st : stdp) : list op :=
  prep_ops (sp_n st) ++ cz_ops (sp_e st) ++ m_ops o (sp_m st) ++ layer L (pend o st).

Lemma prep_onodes ns p n : In p (prep_ops ns) -> In n (onodes p) -> In n (map fst ns).
Proof.
  unfold prep_ops. rewrite in_map_iff. intros ([k s] & <- & H) [<-|[]]. apply (in_map fst _ _ H).
Qed.
Lemma cz_onodes es p n : In p (cz_ops es) -> In n (onodes p) -> exists e, In e es /\ (n = fst e \/ n = snd e).
Proof.
  unfold cz_ops. rewrite in_map_iff. intros (e & <- & H) Hn. exists e; split; auto.
  simpl in Hn. intuition.
Qed.

Lemma std_sem_step o inp pre c st st' L : runnable inp (pre ++ [c]) -> std_inv inp pre st -> cmd_sem_ok c = true ->
  std_step st c = Ok st' -> NoDup L -> (forall n, exists_node inp (pre ++ [c]) n -> In n L) ->
  std_ops o L st ++ cmd_ops o c ≈ std_ops o L st'.
Proof.
  intros HR HI HS H NL HL. pose proof HR as HR'. apply runnable_snoc in HR'. destruct HR' as [HR0 HC].
  destruct HI as [I1 I2 I3 I4 I5 I6 I7 I8 I9 I10 I11 I12 I13 I14].
  assert (LL : forall n, live inp pre n -> In n L) by (intros n [Q _]; apply HL, exists_node_ext; auto).
  unfold std_ops. destruct c as [n s|u v|n me s t|n d|n d|n g|n d|]; cbn [std_step] in H; cbn [cmd_ops].
  - injection H as <-. simpl. destruct HC as [C1 C2].
    unfold prep_ops. rewrite map_app. simpl. rewrite <- !app_assoc. apply leq_app_l. cbn [app].
    assert (NMs : ~ measured_in pre n).
    { intros Q. apply ms_of_In in Q. destruct (runnable_NoDup _ _ HR0) as (_ & _ & _ & F). destruct (F _ Q); auto. }
    assert (NL' : ~ live inp pre n) by (intros [[Q|Q] _]; auto).
    rewrite <- (layer_comm L (pend o st) (OPrep (nstate_vec s) n)).
    2:{ intros k _ [<-|[]]. apply pend_id; intros Q; [apply I10 in Q|apply I11 in Q|apply I12 in Q]; auto. }
    change (pend o (Std _ _ _ _ _ _ _ _)) with (pend o st).
    transitivity ((cz_ops (sp_e st) ++ m_ops o (sp_m st)) ++ [OPrep (nstate_vec s) n] ++ layer L (pend o st)).
    { rewrite <- app_assoc. reflexivity. }
    rewrite app_assoc.
    rewrite (comm_op_l (cz_ops (sp_e st) ++ m_ops o (sp_m st)) (OPrep (nstate_vec s) n)).
    { cbn [app]. rewrite <- app_assoc. reflexivity. }
    intros q Hq k Hk [<-|[]]. apply in_app_or in Hq. destruct Hq as [Hq|Hq].
    + destruct (cz_onodes _ _ _ Hq Hk) as (e & He & Ee). destruct (I6 e He) as ([Q1|Q1] & [Q2|Q2] & _);
      destruct Ee as [-> | ->]; auto.
    + apply (m_ops_onodes _ _ _ _ Hq) in Hk. rewrite I3, ms_of_In in Hk. auto.
  - destruct (std_side st u v) as [st1|] eqn:S1; cbn [rbind] in H; [|discriminate].
    destruct (std_side st1 v u) as [st2|] eqn:S2; cbn [rbind] in H; [|discriminate].
    injection H as <-. destruct HC as [Lu Lv]. simpl in HS. apply negb_true_iff, Nat.eqb_neq in HS.
    change (pend o (Std (sp_in st2) (sp_out st2) (sp_n st2) _ (sp_m st2) (sp_z st2) (sp_x st2) (sp_c st2))) with (pend o st2).
    simpl sp_n; simpl sp_e; simpl sp_m.
    pose proof (std_E_layer o st u v st1 st2 L NL (LL _ Lu) (LL _ Lv) HS S1 S2) as EL.
    apply std_side_spec in S1. destruct S1 as (a & _ & A2 & A3 & A4 & A5 & A6 & _).
    apply std_side_spec in S2. destruct S2 as (b & _ & B2 & B3 & B4 & B5 & B6 & _).
    rewrite B4, A4, B5, A5, B6, A6. rewrite <- !app_assoc. apply leq_app_l.
    rewrite EL. rewrite <- (cz_toggle u v (sp_e st) I5). rewrite <- !app_assoc. apply leq_app_l.
    change (?a ++ ?p :: ?l) with (a ++ [p] ++ l). rewrite (app_assoc _ [_]).
    rewrite (comm_op_l (m_ops o (sp_m st)) (OCz u v)); [reflexivity|].
    intros q Hq k Hk Hk'. apply (m_ops_onodes _ _ _ _ Hq) in Hk. rewrite I3, ms_of_In in Hk.
    destruct Hk' as [<-|[<-|[]]]; [apply Lu|apply Lv]; auto.
  - injection H as <-. destruct HC as [Ln _]. simpl sp_n; simpl sp_e; simpl sp_m.
    pose proof (std_meas_ops o st n me s t) as EM. cbv zeta in EM.
    set (m2 := match dget_ne (sp_x st) n with Some _ => _ | None => _ end) in *.
    assert (N2 : mc_node m2 = n).
    { unfold m2. destruct (dget_ne (sp_x st) n), (dget_ne (sp_z st) n), (dget (sp_c st) n); simpl; auto;
      unfold mcmd_clifford; destruct (commute_domains c _ _); auto. }
    rewrite <- !app_assoc. do 2 apply leq_app_l. unfold m_ops at 2. rewrite map_app, seq_ops_app, <- app_assoc.
    apply leq_app_l. simpl map.
    rewrite (layer_split_r L (pend o st) n) by auto.
    rewrite <- app_assoc. change [OMeas (mvec (describe_measurement o me s t) (o n)) n] with (seq_ops o [CM n me s t]).
    rewrite EM.
    rewrite (layer_eq L (pend o (Std _ _ _ _ _ _ _ _)) (fupd (pend o st) n mid)).
    + symmetry. unfold mcmd_cmd. rewrite N2. simpl. apply layer_comm. intros k _ [<-|[]]. apply fupd_same.
    + intros k _. unfold fupd. destruct (Nat.eqb_spec k n).
      * subst k. apply pend_id; simpl; rewrite dkeys_ddel; tauto.
      * unfold pend, cc. simpl. rewrite !dz_del, dget_ddel. apply Nat.eqb_neq in n0. rewrite Nat.eqb_sym in n0.
        rewrite n0. rewrite Nat.eqb_sym in n0. rewrite n0. reflexivity.
  - destruct (commute_domains _ d sempty) as [s t] eqn:E. injection H as <-. destruct HC as [Ln _].
    simpl sp_n; simpl sp_e; simpl sp_m. rewrite <- !app_assoc. do 3 apply leq_app_l.
    pose proof (std_XZ_pend o st n d sempty s t E) as EP. cbv zeta in EP.
    rewrite (layer_ext L _ _ (fun k _ => EP k)). rewrite <- layer_absorb_r by auto. apply leq_app_l.
    rewrite parity_empty. unfold mXZ. simpl. rewrite mmul_1_r. destruct (parity o d); simpl; [reflexivity|].
    symmetry; apply app1_id.
  - destruct (commute_domains _ sempty d) as [s t] eqn:E. injection H as <-. destruct HC as [Ln _].
    simpl sp_n; simpl sp_e; simpl sp_m. rewrite <- !app_assoc. do 3 apply leq_app_l.
    pose proof (std_XZ_pend o st n sempty d s t E) as EP. cbv zeta in EP.
    rewrite (layer_ext L _ _ (fun k _ => EP k)). rewrite <- layer_absorb_r by auto. apply leq_app_l.
    rewrite parity_empty. unfold mXZ. simpl. rewrite mmul_1_l. destruct (parity o d); simpl; [reflexivity|].
    symmetry; apply app1_id.
  - injection H as <-. simpl sp_n; simpl sp_e; simpl sp_m. rewrite <- !app_assoc. do 3 apply leq_app_l.
    rewrite layer_absorb_r by auto. apply layer_ext. intros k _. unfold fupd.
    destruct (Nat.eqb_spec k n).
    + subst k. unfold pend, cc. simpl. rewrite dget_dset, Nat.eqb_refl. rewrite mmul_assoc.
      apply meqp_mul; [|apply meqp_refl]. apply clifford_mul_mat.
    + unfold pend, cc; simpl. rewrite dget_dset. apply Nat.eqb_neq in n0. rewrite Nat.eqb_sym in n0. rewrite n0. apply meqp_refl.
  - discriminate.
  - injection H as <-. rewrite app_nil_r. reflexivity.
Qed.

Lemma std_sem_fold o p L l st : runnable (p_in p) l -> sem_ok l = true -> rfold std_step l (std_init p) = Ok st ->
  NoDup L -> (forall n, exists_node (p_in p) l n -> In n L) ->
  seq_ops o l ≈ std_ops o L st.
Proof.
  revert st. induction l as [|c l IH] using rev_ind; intros st HR HS H NL HL.
  - simpl in H. injection H as <-. unfold std_ops; simpl. rewrite layer_id; [reflexivity|].
    intros n _. apply pend_id; simpl; auto.
  - pose proof HR as HR'. apply runnable_snoc in HR'. destruct HR' as [HR0 HC]. rewrite std_fold_snoc in H.
    destruct (rfold std_step l (std_init p)) as [st0|] eqn:E; [|discriminate]. simpl in H.
    rewrite sem_ok_snoc in HS. apply andb_true_iff in HS. destruct HS as [HS1 HS2].
    rewrite seq_ops_app. rewrite (IH st0); auto.
    + simpl seq_ops. rewrite app_nil_r. eapply std_sem_step; eauto. apply std_inv_fold; auto.
    + intros; apply HL, exists_node_ext; auto.
Qed.
(** the commands of a standardized pattern denote its normal form *)
Lemma std_cmds_ops o st es L : std_wf st -> edge_enum st es -> NoDup L -> (forall n, std_node st n -> In n L) ->
  seq_ops o (std_cmds st es) ≈ std_ops o L st.
Proof.
  intros W HE NL HL. unfold std_cmds, std_ops. rewrite !seq_ops_app, seq_ops_prep, seq_ops_cz.
  rewrite (cz_ops_perm es (sp_e st) HE). rewrite (corr_layer o st L); try (destruct W; auto; fail).
  - reflexivity.
  - intros n Hn; apply HL. apply (sw_zk st W n Hn).
  - intros n Hn; apply HL. apply (sw_xk st W n Hn).
  - intros n Hn; apply HL. apply (sw_ck st W n Hn).
Qed.

Theorem from_pattern_sem p st es o : from_pattern p = Ok st -> sem_ok (p_seq p) = true -> edge_enum st es ->
  same_branch o (p_seq p) (std_cmds st es).
Proof.
  intros H HS HE. pose proof H as H0. apply from_pattern_inv in H0. destruct H0 as [HR HI].
  pose proof (std_inv_wf _ _ _ HR HI) as W.
  unfold from_pattern in H. destruct (check_runnability p) as [[]|]; [|discriminate]. simpl in H.
  set (L := nodup Nat.eq_dec (p_in p ++ map fst (ns_of (p_seq p)))).
  assert (NL : NoDup L) by apply NoDup_nodup.
  unfold same_branch. rewrite (std_sem_fold o p L _ st HR HS H NL).
  - symmetry. apply std_cmds_ops; auto. intros n Hn. unfold L. rewrite nodup_In, in_app_iff.
    destruct HI. destruct Hn as [Hn|Hn]; [left; congruence|right; congruence].
  - intros n [Hn|Hn]; unfold L; rewrite nodup_In, in_app_iff; auto. right. apply ns_of_In; auto.
Qed.

(** * Entry points *)
Lemma std_step_err st c e : std_step st c = Err e -> e = ENotImplemented.
Proof.
  destruct c as [n s|u v|n me s t|n d|n d|n g|n d|]; cbn [std_step]; try discriminate.
  - assert (S : forall st i j e, std_side st i j = Err e -> e = ENotImplemented).
    { intros st0 i j e0. unfold std_side. destruct (dget (sp_c st0) i) as [g|]; [|discriminate].
      rewrite commute_clifford_cases. destruct (cclass g) as [[|]|]; simpl; congruence. }
    destruct (std_side st u v) as [st1|e1] eqn:S1; cbn [rbind].
    + destruct (std_side st1 v u) as [st2|e2] eqn:S2; cbn [rbind]; [discriminate|]. intros [= <-]. eauto.
    + intros [= <-]. eauto.
  - destruct (commute_domains _ d sempty). discriminate.
  - destruct (commute_domains _ sempty d). discriminate.
Qed.
Lemma rfold_err {A B} (f : A -> B -> res A) (P : err -> Prop) : (forall a b e, f a b = Err e -> P e) ->
  forall l a e, rfold f l a = Err e -> P e.
Proof.
  intros H l. induction l as [|b l IH]; simpl; intros a e; [discriminate|].
  destruct (f a b) eqn:E; [apply IH|]. intros [= <-]. eauto.
Qed.
Lemma from_pattern_err p e : from_pattern p = Err e ->
  (exists r, e = ERun r /\ ~ runnable (p_in p) (p_seq p)) \/ e = ENotImplemented.
Proof.
  unfold from_pattern. destruct (check_runnability p) as [[]|e'] eqn:E; simpl.
  - intros H. right. eapply (rfold_err std_step (fun e => e = ENotImplemented)); [|exact H]. apply std_step_err.
  - intros [= <-]. left. unfold check_runnability in E.
    destruct (run_state (p_in p) (p_seq p)) as [x|x] eqn:R; [discriminate|]. injection E as ->.
    destruct (run_state_err _ _ _ R) as (r & ->). exists r; split; auto.
    intros K. assert (check_runnability p = Ok tt) by (apply check_runnability_spec; auto).
    unfold check_runnability in H. rewrite R in H. discriminate.
Qed.
Lemma fold_out p l st : rfold std_step l (std_init p) = Ok st -> sp_in st = p_in p /\ sp_out st = p_out p.
Proof.
  assert (S : forall st i j st', std_side st i j = Ok st' -> sp_in st' = sp_in st /\ sp_out st' = sp_out st).
  { intros st0 i j st1 H. apply std_side_spec in H. destruct H as (a & _ & H1 & H2 & _); auto. }
  revert st. induction l as [|c l IH] using rev_ind; intros st H.
  - simpl in H. injection H as <-. auto.
  - rewrite std_fold_snoc in H. destruct (rfold std_step l (std_init p)) as [st0|]; [|discriminate]. simpl in H.
    destruct (IH st0 eq_refl) as [Hi Ho].
    destruct c as [n s|u v|n me s t|n d|n d|n g|n d|]; cbn [std_step] in H; try (injection H as <-; auto; fail).
    + destruct (std_side st0 u v) as [st1|] eqn:S1; cbn [rbind] in H; [|discriminate].
      destruct (std_side st1 v u) as [st2|] eqn:S2; cbn [rbind] in H; [|discriminate].
      injection H as <-. apply S in S1, S2. simpl. destruct S1, S2; split; congruence.
    + destruct (commute_domains _ d sempty). injection H as <-; auto.
    + destruct (commute_domains _ sempty d). injection H as <-; auto.
Qed.
Lemma from_pattern_io p st : from_pattern p = Ok st -> sp_in st = p_in p /\ sp_out st = p_out p.
Proof.
  unfold from_pattern. destruct (check_runnability p); [|discriminate]. simpl. apply fold_out.
Qed.
(** the list of outputs a standardized pattern may carry *)
Definition std_out_ok (st : stdp) : Prop :=
  NoDup (sp_out st) /\ forall n, In n (sp_out st) <-> std_node st n /\ ~ std_meas st n.
Lemma to_pattern_ok st es : std_wf st -> edge_enum st es -> NoDup (sp_in st) -> std_out_ok st ->
  existsb (fun e => (fst e =? snd e)%nat) es = false ->
  exists p', to_pattern st es = Ok p' /\ p_in p' = sp_in st /\ p_out p' = sp_out st /\ p_seq p' = std_cmds st es
     /\ pat_wf p'.
Proof.
  intros W HE NI [NO HO] HL. unfold to_pattern. rewrite HL. unfold reorder_output_nodes.
  destruct (pat_extend_fields (pat_new (sp_in st)) (std_cmds st es)) as (F1 & F2 & F3).
  rewrite F1, F2, F3. simpl.
  pose proof (std_runnable st es W (edge_enum_nodes st es W HE)) as HR.
  destruct (outs_of_live _ _ NI HR) as [ND LV].
  assert (EQ : forall n, In n (sp_out st) <-> In n (outs_of (sp_in st) (std_cmds st es))).
  { intros n. rewrite LV, HO. unfold live. rewrite <- ns_of_In, <- ms_of_In, std_cmds_ns, std_cmds_ms.
    unfold std_node, std_meas. tauto. }
  assert (AP : assert_permutation (outs_of (sp_in st) (std_cmds st es)) (sp_out st) = Ok tt).
  { apply assert_permutation_spec. split; auto. }
  rewrite AP. eexists; split; [reflexivity|]. simpl. repeat split; auto.
  unfold pat_wf; simpl. apply NoDup_Permutation; auto.
Qed.
(** pattern.py:75-120 what the container guarantees (see [container_*]): the
    input nodes are distinct and the outputs are the unmeasured nodes *)
Definition pat_ok (p : pattern) : Prop := NoDup (p_in p) /\ pat_wf p.
Lemma from_pattern_out_ok p st : pat_ok p -> from_pattern p = Ok st -> std_out_ok st.
Proof.
  intros [NI WF] H. destruct (from_pattern_io _ _ H) as [E1 E2]. apply from_pattern_inv in H. destruct H as [HR HI].
  destruct (outs_of_live _ _ NI HR) as [ND LV]. split.
  - rewrite E2. eapply Permutation_NoDup; [apply Permutation_sym; exact WF|auto].
  - intros n. rewrite E2. transitivity (In n (outs_of (p_in p) (p_seq p))).
    + split; apply Permutation_in; [exact WF|apply Permutation_sym; exact WF].
    + rewrite LV. unfold live, std_node, std_meas. destruct HI as [I1 I2 I3 _].
      rewrite I1, I2, I3, ns_of_In, ms_of_In. tauto.
Qed.
Lemma no_loops p st es : from_pattern p = Ok st -> sem_ok (p_seq p) = true -> edge_enum st es ->
  existsb (fun e => (fst e =? snd e)%nat) es = false.
Proof.
  intros H HS HE. apply from_pattern_inv in H. destruct H as [_ HI].
  apply not_true_iff_false. rewrite existsb_exists. intros (e & He & Q). apply Nat.eqb_eq in Q.
  assert (K : In (edge_norm e) (sp_e st)) by (eapply Permutation_in; [exact HE|apply in_map; auto]).
  destruct (si_e _ _ _ HI _ K) as (_ & _ & _ & N). apply (N HS). unfold edge_norm; simpl. lia.
Qed.
(** standardize on a valid pattern: either it raises one of two documented
    exceptions, or it returns a pattern with the same inputs, outputs and
    branches, which is runnable and in standard order *)
Lemma standardizes_ok p r : pat_ok p -> sem_ok (p_seq p) = true -> standardizes p r ->
  (exists rs, r = Err (ERun rs) /\ ~ runnable (p_in p) (p_seq p)) \/ r = Err ENotImplemented \/
  exists st es p', from_pattern p = Ok st /\ edge_enum st es /\ r = Ok p' /\ p_seq p' = std_cmds st es
    /\ p_in p' = p_in p /\ p_out p' = p_out p /\ pat_ok p' /\ runnable (p_in p) (p_seq p)
    /\ runnable (p_in p') (p_seq p') /\ forall o, same_branch o (p_seq p) (p_seq p').
Proof.
  intros OK HS H. unfold standardizes in H. destruct (from_pattern p) as [st|e] eqn:E.
  - right; right. destruct H as (es & HE & ->). pose proof (from_pattern_inv _ _ E) as [HR HI].
    pose proof (std_inv_wf _ _ _ HR HI) as W. destruct (from_pattern_io _ _ E) as [E1 E2].
    destruct (to_pattern_ok st es W HE) as (p' & Hp & P1 & P2 & P3 & P4).
    + rewrite E1; apply OK.
    + eapply from_pattern_out_ok; eauto.
    + eapply no_loops; eauto.
    + exists st, es, p'. rewrite P1, P2, P3, E1, E2. repeat split; auto.
      * rewrite P1, E1; apply OK.
      * rewrite <- E1. apply std_runnable; auto. apply edge_enum_nodes; auto.
      * intros o. eapply from_pattern_sem; eauto.
  - destruct (from_pattern_err _ _ E) as [(rs & -> & N)| ->]; subst; eauto.
Qed.

(** ** Order of the commands *)
Inductive kind := kN | kE | kM | kX | kZ | kC | kS | kT.
Definition kind_of (c : cmd) : kind :=
  match c with CN _ _ => kN | CE _ _ => kE | CM _ _ _ _ => kM | CX _ _ => kX | CZ _ _ => kZ | CC _ _ => kC | CS _ _ => kS | CT => kT end.
Fixpoint skip_while (f : kind -> bool) (l : list cmd) : list cmd :=
  match l with [] => [] | c :: l' => if f (kind_of c) then skip_while f l' else l end.
Definition isN k := match k with kN => true | _ => false end.
Definition isE k := match k with kE => true | _ => false end.
Definition isM k := match k with kM => true | _ => false end.
Definition isC k := match k with kC => true | _ => false end.
Definition isXZ k := match k with kX | kZ => true | _ => false end.
Definition isXZC k := match k with kX | kZ | kC => true | _ => false end.
(** pattern.py:590-625 is_standard *)
Definition is_standard (strict : bool) (p : pattern) : bool :=
  let l := skip_while isM (skip_while isE (skip_while isN (p_seq p))) in
  let l := if strict then skip_while isC (skip_while isXZ l) else skip_while isXZC l in
  match l with [] => true | _ => false end.
Lemma skip_while_app f l1 l2 : (forall c, In c l1 -> f (kind_of c) = true) -> skip_while f (l1 ++ l2) = skip_while f l2.
Proof. induction l1 as [|c l1 IH]; simpl; auto. intros H. rewrite H by auto. apply IH; auto. Qed.
Lemma skip_while_all f l : (forall c, In c l -> f (kind_of c) = true) -> skip_while f l = [].
Proof. intros H. rewrite <- (app_nil_r l), skip_while_app; auto. Qed.
Lemma skip_while_stop f l1 l2 : (forall c, In c l1 -> f (kind_of c) = false) -> (l1 = [] -> skip_while f l2 = l2) -> skip_while f (l1 ++ l2) = l1 ++ l2.
Proof. destruct l1 as [|c l1]; simpl; auto. intros H _. rewrite H; auto. Qed.
Lemma std_is_standard st es strict p : p_seq p = std_cmds st es -> is_standard strict p = true.
Proof.
  intros E. unfold is_standard. rewrite E. unfold std_cmds.
  assert (M : forall A (f : A -> cmd) (g : kind -> bool) b l, (forall a, g (kind_of (f a)) = b) ->
     forall c, In c (map f l) -> g (kind_of c) = b).
  { intros A f g b l H1 c Hc. apply in_map_iff in Hc. destruct Hc as (a & <- & _). apply H1. }
  assert (ST : forall g, g kM = false -> g kX = false -> g kZ = false -> g kC = false ->
     skip_while g (map mcmd_cmd (sp_m st) ++ map (fun p => CZ (fst p) (snd p)) (sp_z st) ++ map (fun p => CX (fst p) (snd p)) (sp_x st) ++ map (fun p => CC (fst p) (snd p)) (sp_c st))
     = map mcmd_cmd (sp_m st) ++ map (fun p => CZ (fst p) (snd p)) (sp_z st) ++ map (fun p => CX (fst p) (snd p)) (sp_x st) ++ map (fun p => CC (fst p) (snd p)) (sp_c st)).
  { intros g G1 G2 G3 G4. rewrite <- (app_nil_r (map _ (sp_c st))).
    repeat (apply skip_while_stop; [apply M; intros; simpl; auto|intros _]). reflexivity. }
  rewrite skip_while_app by (apply M; reflexivity).
  rewrite skip_while_stop with (f := isN); [|apply M; reflexivity|intros _; apply ST; reflexivity].
  rewrite skip_while_app by (apply M; reflexivity). rewrite ST by reflexivity.
  rewrite skip_while_app by (apply M; reflexivity).
  rewrite skip_while_stop with (f := isM); [|apply M; reflexivity|].
  2:{ intros _. rewrite <- (app_nil_r (map _ (sp_c st))).
      repeat (apply skip_while_stop; [apply M; intros; simpl; auto|intros _]). reflexivity. }
  destruct strict.
  - rewrite skip_while_app by (apply M; reflexivity).
    rewrite skip_while_app by (apply M; reflexivity).
    rewrite <- (app_nil_r (map _ (sp_c st))).
    rewrite skip_while_stop; [|apply M; reflexivity|auto].
    rewrite app_nil_r, skip_while_all; auto. apply M; reflexivity.
  - rewrite skip_while_all; auto. intros c Hc. rewrite !in_app_iff, !in_map_iff in Hc.
    destruct Hc as [(a & <- & _)|[(a & <- & _)|(a & <- & _)]]; reflexivity.
Qed.

(** ** Edges are kept modulo 2 *)
Definition edge_cmds (l : list cmd) : list (nat * nat) := flat_map (fun c => match c with CE u v => [edge_norm (u, v)] | _ => [] end) l.
Fixpoint odd_count (e : nat * nat) (l : list (nat * nat)) : bool :=
  match l with [] => false | x :: l' => xorb (edge_eqb e x) (odd_count e l') end.
Lemma odd_count_app e l1 l2 : odd_count e (l1 ++ l2) = xorb (odd_count e l1) (odd_count e l2).
Proof. induction l1 as [|x l1 IH]; simpl; [destruct (odd_count e l2); auto|]. rewrite IH, xorb_assoc; auto. Qed.
Lemma toggle_mem e x es : existsb (edge_eqb x) (edge_toggle e es) = xorb (existsb (edge_eqb x) es) (edge_eqb x e).
Proof.
  unfold edge_toggle. destruct (existsb (edge_eqb e) es) eqn:E.
  - destruct (edge_eqb x e) eqn:Q.
    + apply edge_eqb_eq in Q. subst x. rewrite E. simpl.
      apply not_true_iff_false. rewrite existsb_exists. intros (y & Hy & K). apply filter_In in Hy. destruct Hy as [_ Hy].
      rewrite K in Hy. discriminate.
    + rewrite xorb_false_r. apply eq_true_iff_eq. rewrite !existsb_exists. split.
      * intros (y & Hy & K). apply filter_In in Hy. exists y; tauto.
      * intros (y & Hy & K). exists y; split; auto. apply filter_In; split; auto.
        apply negb_true_iff, not_true_iff_false. intros K'. apply edge_eqb_eq in K, K'. subst.
        assert (edge_eqb y y = true) by (apply edge_eqb_eq; auto). congruence.
  - rewrite existsb_app. simpl. rewrite orb_false_r. destruct (edge_eqb x e) eqn:Q.
    + apply edge_eqb_eq in Q. subst. rewrite E. auto.
    + rewrite xorb_false_r, orb_false_r; auto.
Qed.
Lemma std_side_e st i j st' : std_side st i j = Ok st' -> sp_e st' = sp_e st.
Proof. intros H. apply std_side_spec in H. destruct H as (a & _ & _ & _ & _ & H & _); auto. Qed.
Lemma std_fold_edges p l st e : rfold std_step l (std_init p) = Ok st ->
  existsb (edge_eqb e) (sp_e st) = odd_count e (edge_cmds l).
Proof.
  revert st. induction l as [|c l IH] using rev_ind; intros st H.
  - simpl in H. injection H as <-. auto.
  - rewrite std_fold_snoc in H. destruct (rfold std_step l (std_init p)) as [st0|]; [|discriminate]. simpl in H.
    specialize (IH st0 eq_refl). unfold edge_cmds. rewrite flat_map_app, odd_count_app. fold (edge_cmds l). rewrite <- IH.
    destruct c as [n s|u v|n me s t|n d|n d|n g|n d|]; cbn [std_step] in H;
      try (injection H as <-; simpl; rewrite xorb_false_r; auto; fail).
    + destruct (std_side st0 u v) as [st1|] eqn:S1; cbn [rbind] in H; [|discriminate].
      destruct (std_side st1 v u) as [st2|] eqn:S2; cbn [rbind] in H; [|discriminate].
      injection H as <-. simpl. apply std_side_e in S1, S2. rewrite toggle_mem, S2, S1, xorb_false_r. reflexivity.
    + destruct (commute_domains _ d sempty). injection H as <-. simpl. rewrite xorb_false_r; auto.
    + destruct (commute_domains _ sempty d). injection H as <-. simpl. rewrite xorb_false_r; auto.
Qed.
(** without C commands standardization never raises NotImplementedError *)
Lemma std_fold_noC p l : (forall n g, ~ In (CC n g) l) -> exists st, rfold std_step l (std_init p) = Ok st /\ sp_c st = [].
Proof.
  induction l as [|c l IH] using rev_ind; intros H.
  - exists (std_init p); auto.
  - destruct IH as (st0 & E & HC). { intros n g K. apply (H n g), in_or_app; auto. }
    rewrite std_fold_snoc, E. simpl.
    destruct c as [n s|u v|n me s t|n d|n d|n g|n d|]; cbn [std_step]; try (eexists; split; [reflexivity|]; simpl; rewrite ?HC; auto; fail).
    + assert (S : forall st i j, sp_c st = [] -> exists st', std_side st i j = Ok st' /\ sp_c st' = []).
      { intros st i j Q. unfold std_side. rewrite Q. simpl. eexists; split; [reflexivity|auto]. }
      destruct (S st0 u v HC) as (st1 & -> & C1'). cbn [rbind].
      destruct (S st1 v u C1') as (st2 & -> & C2'). cbn [rbind]. eexists; split; [reflexivity|auto].
    + destruct (commute_domains _ d sempty). eexists; split; [reflexivity|auto].
    + destruct (commute_domains _ sempty d). eexists; split; [reflexivity|auto].
    + exfalso. apply (H n g), in_or_app; simpl; auto.
Qed.
Lemma from_pattern_noC p : runnable (p_in p) (p_seq p) -> (forall n g, ~ In (CC n g) (p_seq p)) -> exists st, from_pattern p = Ok st.
Proof.
  intros HR H. unfold from_pattern. apply check_runnability_spec in HR. rewrite HR. simpl.
  destruct (std_fold_noC p (p_seq p) H) as (st & E & _). eauto.
Qed.
