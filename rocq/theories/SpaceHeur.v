(** Model of the built-in space-minimization heuristics, of the extraction of
    XZ-corrections from a standardized pattern, and of
    Pattern.minimize_space / parallelize_pattern. *)
From Coq Require Import Reals Arith ZArith NArith List Bool Lia Permutation Setoid Morphisms Relations.
From Verif Require Import Cplx Mat2 Fundamentals CliffordDb Clifford NSet Measure QState Pattern Layer Standardize Space SpaceMin
  FlowSem FlowDet OpenGraph FlowSpec Flow FlowWF FlowPat TopGen Corr.
Import ListNotations.

(** * greedy_degree *)
(** [dependency[n] |= s] *)
Definition dep_or (d : dict nset) (n : nat) (s : nset) : res (dict nset) :=
  match dget d n with Some t => Ok (dset d n (sunion t s)) | None => Err EKey end.
(** space_minimization.py:321-342 _extract_dependency *)
Definition extract_dependency (st : stdp) : res (dict nset) :=
  let d0 := fold_left (fun d n => dset d n sempty) (sp_in st ++ map fst (sp_n st)) [] in
  do d <- rfold (fun d m => dep_or d (mc_node m) (sunion (mc_s m) (mc_t m))) (sp_m st) d0;
  rfold (fun d p => dep_or d (fst p) (snd p)) (sp_z st ++ sp_x st) d.
(** space_minimization.py:345-356 _update_dependency({n}, dependency) *)
Definition update_dependency (n : nat) (d : dict nset) : dict nset := map (fun p => (fst p, sremove n (snd p))) d.
(** [graph.degree(n)] on the remaining edges (no self loop) *)
Definition degree (es : list (nat * nat)) (n : nat) : nat := length (filter (fun e => (fst e =? n)%nat || (snd e =? n)%nat) es).
(** [min(..., key=...)]: the first of the minimal elements *)
Fixpoint min_by (f : nat -> nat) (l : list nat) : option nat :=
  match l with
  | [] => None
  | n :: l' => match min_by f l' with Some k => if (f k <? f n)%nat then Some k else Some n | None => Some n end
  end.
(** [graph.remove_nodes_from({n})] *)
Definition remove_node (n : nat) (es : list (nat * nat)) : list (nat * nat) := filter (fun e => negb ((fst e =? n)%nat || (snd e =? n)%nat)) es.
(** [i for i in not_measured if not dependency[i]] *)
Fixpoint ready (d : dict nset) (l : list nat) : res (list nat) :=
  match l with
  | [] => Ok []
  | n :: l' => match dget d n with
               | None => Err EKey
               | Some s => do r <- ready d l'; Ok (if is_empty s then n :: r else r)
               end
  end.
(** space_minimization.py:228-233 the while loop *)
Fixpoint greedy_loop (it : iter) (fuel : nat) (es : list (nat * nat)) (nm : nset) (d : dict nset) : res (list nat) :=
  if is_empty nm then Ok [] else
  match fuel with
  | 0 => Err EFuel
  | S f =>
      do c <- ready d (it nm);
      match min_by (degree es) c with
      | None => Err EValue
      | Some n => do r <- greedy_loop it f (remove_node n es) (sremove n nm) (update_dependency n d); Ok (n :: r)
      end
  end.
(** space_minimization.py:219-238 greedy_degree *)
Definition h_greedy (it : iter) : heuristic := fun st =>
  if has_loop st then Err EValue else
  do d <- extract_dependency st;
  let nm := sdiff (sp_nodes st) (of_list (sp_out st)) in
  do o <- greedy_loop it (card nm) (sp_e st) nm d;
  Ok (Some (o, false)).

Lemma min_by_some f l : l <> [] -> exists n, min_by f l = Some n /\ In n l.
Proof.
  induction l as [|n l IH]; [congruence|]. intros _. cbn [min_by]. destruct l as [|k l].
  - exists n. cbn. auto.
  - destruct IH as (m & -> & I); [discriminate|]. destruct (f m <? f n)%nat; eexists; split; eauto; [right|left]; auto.
Qed.
Lemma ready_ok d l : (forall n, In n l -> exists s, dget d n = Some s) ->
  exists r, ready d l = Ok r /\ forall n, In n r <-> In n l /\ dget d n = Some sempty.
Proof.
  induction l as [|n l IH]; intros H; cbn [ready].
  - exists []. split; auto. cbn. tauto.
  - destruct (H n (or_introl eq_refl)) as (s & E). rewrite E. destruct IH as (r & -> & I); [intros; apply H; right; auto|]. cbn [rbind].
    eexists. split; [reflexivity|]. intros k. cbn [In]. destruct (is_empty s) eqn:Es.
    + apply is_empty_spec in Es. subst s. cbn [In]. rewrite I. split; [intros [<-|[K1 K2]]; auto|]. intros [[<-|K1] K2]; auto.
    + rewrite I. split; [intros [K1 K2]; auto|]. intros [[<-|K1] K2]; auto. rewrite E in K2. injection K2 as ->. discriminate.
Qed.
Lemma upd_get n d k : dget (update_dependency n d) k = option_map (sremove n) (dget d k).
Proof. induction d as [|[k' s] d IH]; cbn; auto. destruct (k' =? k)%nat; auto. Qed.

Lemma dep_or_fold {A} (key : A -> nat) (val : A -> nset) l : forall d, (forall a, In a l -> exists s, dget d (key a) = Some s) ->
  exists d', rfold (fun d a => dep_or d (key a) (val a)) l d = Ok d' /\
    (forall n, (exists s, dget d' n = Some s) <-> exists s, dget d n = Some s) /\
    forall n s s', dget d n = Some s -> dget d' n = Some s' -> forall k, mem k s' = true <-> mem k s = true \/ exists a, In a l /\ key a = n /\ mem k (val a) = true.
Proof.
  induction l as [|a l IH]; intros d H; cbn [rfold].
  - exists d. split; auto. split; [tauto|]. intros n s s' E1 E2 k. rewrite E1 in E2. injection E2 as <-. split; auto. intros [K|(a & [] & _)]; auto.
  - destruct (H a (or_introl eq_refl)) as (s0 & E0). unfold dep_or at 1. rewrite E0.
    set (d1 := dset d (key a) (sunion s0 (val a))).
    assert (D1 : forall n, dget d1 n = if (key a =? n)%nat then Some (sunion s0 (val a)) else dget d n) by (intros n; apply dget_dset).
    assert (T : forall n, (exists s, dget d1 n = Some s) <-> exists s, dget d n = Some s).
    { intros n. rewrite D1. destruct (Nat.eqb_spec (key a) n) as [E|E]; [|tauto]. subst n. split; eauto. }
    destruct (IH d1) as (d' & A1 & B & C).
    { intros b Hb. apply T. apply H. right; auto. }
    exists d'. split; auto. split; [intros n; rewrite B, T; tauto|]. intros n s s' E1 E2 k.
    assert (T' : exists s1, dget d1 n = Some s1) by (apply T; eauto). destruct T' as (s1 & T').
    rewrite (C n s1 s' T' E2 k). rewrite D1 in T'. destruct (Nat.eqb_spec (key a) n) as [E|E].
    + subst n. injection T' as <-. rewrite E0 in E1. injection E1 as <-. rewrite mem_sunion, orb_true_iff. cbn [In]. split.
      * intros [[K|K]|(b & K1 & K2)]; auto; right; [exists a|exists b]; auto.
      * intros [K|(b & [<-|K1] & K2 & K3)]; auto. right. exists b. auto.
    + rewrite E1 in T'. injection T' as <-. cbn [In]. split.
      * intros [K|(b & K1 & K2)]; auto. right. exists b. auto.
      * intros [K|(b & [<-|K1] & K2 & K3)]; auto; try congruence. right. exists b. auto.
Qed.
Lemma dep0_get l : forall d n, dget (fold_left (fun d n => dset d n sempty) l d) n = if lmem n l then Some sempty else dget d n.
Proof.
  induction l as [|m l IH]; intros d n; cbn [fold_left]; auto. rewrite IH, dget_dset. unfold lmem. cbn [existsb].
  destruct (existsb (Nat.eqb n) l); [rewrite orb_true_r; auto|]. rewrite orb_false_r, (Nat.eqb_sym n m). auto.
Qed.
Lemma extract_ok st : std_wf st -> exists d, extract_dependency st = Ok d /\ (forall n, std_node st n -> exists s, dget d n = Some s) /\
  forall m s, In m (sp_m st) -> dget d (mc_node m) = Some s -> forall k, mem k s = true <-> mem k (mc_s m) = true \/ mem k (mc_t m) = true.
Proof.
  intros W. unfold extract_dependency. set (d0 := fold_left (fun d n => dset d n sempty) (sp_in st ++ map fst (sp_n st)) []).
  assert (D0 : forall n, std_node st n -> dget d0 n = Some sempty).
  { intros n Hn. unfold d0. rewrite dep0_get. replace (lmem n (sp_in st ++ map fst (sp_n st))) with true; auto. symmetry. apply lmem_In. rewrite in_app_iff. exact Hn. }
  destruct (dep_or_fold mc_node (fun m => sunion (mc_s m) (mc_t m)) (sp_m st) d0) as (d1 & E1 & T1 & V1).
  { intros m Hm. exists sempty. apply D0, (sw_mn _ W). apply in_map; auto. }
  rewrite E1. cbn [rbind].
  destruct (dep_or_fold fst snd (sp_z st ++ sp_x st) d1) as (d2 & E2 & T2 & V2).
  { intros p Hp. apply T1. exists sempty. apply D0. apply in_app_or in Hp. destruct Hp as [Hp|Hp]; [apply (sw_zk _ W)|apply (sw_xk _ W)]; apply in_map; auto. }
  exists d2. split; auto. split.
  - intros n Hn. apply T2, T1. exists sempty. auto.
  - intros m s Hm Hs k. assert (Hn : std_node st (mc_node m)) by (apply (sw_mn _ W); apply in_map; auto).
    assert (K1 : exists s1, dget d1 (mc_node m) = Some s1) by (apply T1; exists sempty; auto). destruct K1 as (s1 & K1).
    rewrite (V2 _ _ _ K1 Hs k), (V1 _ _ _ (D0 _ Hn) K1 k), mem_empty. split.
    + intros [[K|(m' & A & B & C)]|(p & A & B & C)]; [discriminate| |].
      * rewrite (NoDup_map_eq mc_node (sp_m st) m' m (sw_mN _ W) A Hm B) in C. rewrite mem_sunion, orb_true_iff in C. auto.
      * exfalso. assert (MM : std_meas st (fst p)) by (rewrite B; apply in_map; auto). apply in_app_or in A. destruct A as [A|A]; [apply (sw_zk _ W (fst p) (in_map fst _ _ A)); auto|apply (sw_xk _ W (fst p) (in_map fst _ _ A)); auto].
    + intros K. left. right. exists m. split; auto. split; auto. rewrite mem_sunion, orb_true_iff. auto.
Qed.

Section Greedy.
Variables (it : iter) (st : stdp).
Hypotheses (Hit : iter_ok it) (W : std_wf st).
(** [acc] has been chosen *)
Lemma greedy_ok fuel : forall es nm d acc, card nm <= fuel ->
  (forall n, mem n nm = true <-> std_meas st n /\ ~ In n acc) ->
  (forall n, std_meas st n -> exists s, dget d n = Some s) ->
  (forall m s, In m (sp_m st) -> dget d (mc_node m) = Some s -> forall k, mem k s = true <-> (mem k (mc_s m) = true \/ mem k (mc_t m) = true) /\ ~ In k acc) ->
  exists ord, greedy_loop it fuel es nm d = Ok ord /\ NoDup ord /\ (forall n, In n ord <-> mem n nm = true) /\
    forall pre n post m k, ord = pre ++ n :: post -> In m (sp_m st) -> mc_node m = n -> mem k (mc_s m) = true \/ mem k (mc_t m) = true -> In k (acc ++ pre).
Proof.
  induction fuel as [|fuel IH]; intros es nm d acc Hc Hnm Hd Hs; cbn [greedy_loop].
  - assert (E : is_empty nm = true).
    { apply is_empty_spec, nset_ext. intros n. rewrite mem_empty. apply not_true_iff_false. intros K. assert (Q := card_list nm [n] ltac:(repeat constructor; auto)). cbn in Q. specialize (Q ltac:(intros x [<-|[]]; auto)). lia. }
    rewrite E. exists []. split; auto. split; [constructor|]. split; [|intros [|? ?]; discriminate].
    intros n. rewrite (is_empty_mem _ E). cbn. split; [tauto|discriminate].
  - destruct (is_empty nm) eqn:E.
    { exists []. split; auto. split; [constructor|]. split; [|intros [|? ?]; discriminate].
      intros n. rewrite (is_empty_mem _ E). cbn. split; [tauto|discriminate]. }
    destruct (ready_ok d (it nm)) as (r & -> & R).
    { intros n Hn. apply iter_In in Hn; auto. apply Hnm in Hn. apply Hd, Hn. }
    cbn [rbind].
    assert (NE : r <> []).
    { (* the first node in the order of the pattern that has not been chosen *)
      assert (F : exists pre m post, sp_m st = pre ++ m :: post /\ mem (mc_node m) nm = true /\ forall m', In m' pre -> mem (mc_node m') nm = false).
      { assert (X : exists n, mem n nm = true).
        { destruct (elems nm) as [|n l] eqn:Q; [|exists n; apply elems_spec; rewrite Q; left; auto]. exfalso. apply is_empty_false in E. apply E, nset_ext. intros n. rewrite mem_empty. apply not_true_iff_false. rewrite <- elems_spec, Q. auto. }
        destruct X as (n & Hn). assert (Hn' := proj1 (proj1 (Hnm n) Hn)). unfold std_meas in Hn'. revert Hn Hn'. clear. generalize (sp_m st). intros l Hn. induction l as [|m l IH]; intros Hl; [destruct Hl|].
        destruct (mem (mc_node m) nm) eqn:Em; [exists [], m, l; split; auto; split; auto; intros m' []|].
        destruct Hl as [<-|Hl]; [congruence|]. destruct (IH Hl) as (pre & m0 & post & -> & A & B). exists (m :: pre), m0, post. split; auto. split; auto. intros m' [<-|K]; auto. }
      destruct F as (pre & m & post & F1 & F2 & F3). intros ->. assert (K : In (mc_node m) []); [|destruct K]. apply R. split; [apply iter_In; auto|].
      assert (Hm : In m (sp_m st)) by (rewrite F1; apply in_or_app; right; left; auto).
      destruct (Hd (mc_node m)) as (s & Es); [apply in_map; auto|]. rewrite Es. f_equal. apply nset_ext. intros k. rewrite mem_empty. apply not_true_iff_false. rewrite (Hs m s Hm Es k). intros [K1 K2].
      apply (sw_ord _ W pre m post F1) in K1. apply in_map_iff in K1. destruct K1 as (m' & <- & K1). specialize (F3 _ K1). apply not_true_iff_false in F3. apply F3, Hnm. split; auto.
      apply in_map. rewrite F1. apply in_or_app; auto. }
    destruct (min_by_some (degree es) r NE) as (n & -> & Hn). apply R in Hn. destruct Hn as [Hn1 Hn2]. apply iter_In in Hn1; auto.
    destruct (IH (remove_node n es) (sremove n nm) (update_dependency n d) (acc ++ [n])) as (ord & E1 & ND & I1 & O1).
    { assert (Q : card nm = S (card (sremove n nm))).
      { rewrite (card_list_eq nm (n :: elems (sremove n nm))); [reflexivity| |].
        - constructor; [rewrite elems_spec, mem_sremove, Nat.eqb_refl, andb_false_r; discriminate|apply elems_NoDup].
        - intros k. cbn [In]. rewrite elems_spec, mem_sremove, andb_true_iff, negb_true_iff, Nat.eqb_neq. split.
          + intros [<-|[K _]]; auto.
          + intros K. destruct (Nat.eq_dec n k); auto. }
      lia. }
    { intros k. rewrite mem_sremove, andb_true_iff, negb_true_iff, Nat.eqb_neq, Hnm, in_app_iff. cbn [In]. split; [intros [[A B] C]; split; auto; intros [K|[K|[]]]; auto|]. intros [A B]. split; [split; auto|]. intros ->. auto. }
    { intros k Hk. rewrite upd_get. destruct (Hd k Hk) as (s & ->). cbn. eauto. }
    { intros m s Hm. rewrite upd_get. destruct (dget d (mc_node m)) as [s0|] eqn:Q; [|discriminate]. cbn. intros [= <-] k.
      rewrite mem_sremove, andb_true_iff, negb_true_iff, Nat.eqb_neq, (Hs m s0 Hm Q k), in_app_iff. cbn [In]. split; [intros [[A B] C]; split; auto; intros [K|[K|[]]]; auto|]. intros [A B]. split; [split; auto|]. intros ->. auto. }
    rewrite E1. cbn [rbind]. exists (n :: ord). split; auto. split; [|split].
    + constructor; auto. rewrite I1, mem_sremove, Nat.eqb_refl, andb_false_r. discriminate.
    + intros k. cbn [In]. rewrite I1, mem_sremove, andb_true_iff, negb_true_iff, Nat.eqb_neq. split; [intros [<-|[K _]]; auto|]. intros K. destruct (Nat.eq_dec n k); auto.
    + intros pre x post m k EQ Hm Hx Hk. destruct pre as [|y pre]; injection EQ as <- EQ.
      * rewrite app_nil_r. destruct (in_dec Nat.eq_dec k acc) as [K|K]; auto. exfalso. subst n. assert (Q := Hs m sempty Hm Hn2 k). rewrite mem_empty in Q. assert (false = true) by (apply Q; auto). discriminate.
      * assert (Q := O1 pre x post m k EQ Hm Hx Hk). rewrite <- app_assoc in Q. exact Q.
Qed.
Lemma h_greedy_ok : std_out_ok st -> has_loop st = false -> exists ord, h_greedy it st = Ok (Some (ord, false)) /\ good_order st ord.
Proof.
  intros [NO HO] HL. unfold h_greedy. rewrite HL. destruct (extract_ok st W) as (d & -> & D1 & D2). cbn [rbind].
  set (nm := sdiff (sp_nodes st) (of_list (sp_out st))).
  assert (NM : forall n, mem n nm = true <-> std_meas st n /\ ~ In n []).
  { intros n. unfold nm. rewrite mem_sdiff, andb_true_iff, negb_true_iff. rewrite <- not_true_iff_false, mem_of_list, HO. unfold sp_nodes. rewrite mem_of_list, !in_app_iff, in_flat_map.
    split.
    - intros [A B]. split; [|cbn; tauto]. assert (N : std_node st n).
      { destruct A as [A|[A|(e & A1 & A2)]]; [left; auto|right; auto|]. destruct (sw_e _ W e A1) as (P & Q & _). destruct A2 as [<-|[<-|[]]]; auto. }
      destruct (in_dec Nat.eq_dec n (map mc_node (sp_m st))) as [K|K]; auto. exfalso. apply B. split; auto.
    - intros [A _]. split; [|tauto]. destruct (sw_mn _ W n A); auto. }
  destruct (greedy_ok (card nm) (sp_e st) nm d [] (le_n _) NM) as (ord & -> & ND & I & O).
  - intros n Hn. apply D1, (sw_mn _ W); auto.
  - intros m s Hm Hs k. rewrite (D2 m s Hm Hs k). cbn. tauto.
  - cbn [rbind]. exists ord. split; auto. split; [|exact O]. apply NoDup_Permutation; auto; [apply W|]. intros n. rewrite I, NM. unfold std_meas. cbn. tauto.
Qed.
End Greedy.

(** * Extraction of XZ-corrections *)
(** [nx.Graph.add_node]: nodes in order of first insertion *)
Definition uniq (l : list nat) : list nat := fold_left (fun acc n => if lmem n acc then acc else acc ++ [n]) l [].
(** optimization.py:224-237 graph(); [es]: the edges in the order and orientation networkx lists them *)
Definition std_graph (st : stdp) (es : list (nat * nat)) : graph :=
  Graph (uniq (sp_in st ++ map fst (sp_n st) ++ flat_map (fun e => [fst e; snd e]) (sp_e st))) es.
Definition is_plus (s : nstate) : bool := match s with SPlus => true | SVec _ => false end.
(** optimization.py:338-356 to_opengraph *)
Definition std_opengraph (st : stdp) (es : list (nat * nat)) : res opengraph :=
  if negb (forallb (fun p => is_plus (snd p)) (sp_n st)) then Err EValue else
  if has_loop st then Err EValue else
  og_make (std_graph st es) (sp_in st) (sp_out st) (fold_left (fun d m => dset d (mc_node m) (mc_meas m)) (sp_m st) []) (sp_c st).
(** optimization.py:533-551 _update_corrections *)
Definition update_corrections (it : iter) (c : dict nset) (p : nat * nset) : dict nset :=
  fold_left (fun c u => dset c u (sadd (fst p) (dgets c u))) (it (snd p)) c.
(** optimization.py:418-450 to_xzcorrections *)
Definition std_to_xz (it : iter) (st : stdp) (es : list (nat * nat)) : res xzcorr :=
  let x := fold_left (update_corrections it) (map (fun m => (mc_node m, mc_s m)) (sp_m st) ++ sp_x st) [] in
  let z := fold_left (update_corrections it) (map (fun m => (mc_node m, mc_t m)) (sp_m st) ++ sp_z st) [] in
  do og <- std_opengraph st es;
  from_mapping it og x z.
(** measurements.py / opengraph.py downcast_bloch: TypeError unless every measurement is a BlochMeasurement *)
Definition is_bloch (m : measurement) : bool := match m with MBloch _ _ => true | MPauli _ _ => false end.
(** space_minimization.py:188-200 causal_flow, with core.py:211-234 to_causalflow *)
Definition h_causal (it : iter) (es : list (nat * nat)) : heuristic := fun st =>
  match std_to_xz it st es with
  | Err EFlow => Ok None
  | Err e => Err e
  | Ok xz =>
      if negb (forallb (fun p => is_bloch (snd p)) (og_meas (xz_og xz))) then Ok None else
      match cf_check it (PF (xz_og xz) (xz_x xz) (xz_layers xz)) with
      | Ok _ => Ok (Some (flat_map it (rev (tl (xz_layers xz))), true))
      | Err EFlow => Ok None
      | Err e => Err e
      end
  end.

Lemma uniq_spec l : NoDup (uniq l) /\ forall n, In n (uniq l) <-> In n l.
Proof.
  unfold uniq. assert (G : forall acc, NoDup acc -> NoDup (fold_left (fun acc n => if lmem n acc then acc else acc ++ [n]) l acc) /\ forall n, In n (fold_left (fun acc n => if lmem n acc then acc else acc ++ [n]) l acc) <-> In n acc \/ In n l).
  { induction l as [|x l IH]; intros acc ND; cbn [fold_left]; [split; auto; intros n; cbn; tauto|].
    destruct (lmem x acc) eqn:E.
    - destruct (IH acc ND) as [A B]. split; auto. intros n. rewrite B. cbn [In]. apply lmem_In in E. split; [tauto|]. intros [K|[<-|K]]; auto.
    - destruct (IH (acc ++ [x])) as [A B].
      { apply (Permutation_NoDup (l := x :: acc)); [apply Permutation_cons_append|]. constructor; auto. rewrite <- lmem_In. congruence. }
      split; auto. intros n. rewrite B, in_app_iff. cbn [In]. tauto. }
  destruct (G [] (NoDup_nil _)) as [A B]. split; auto. intros n. rewrite B. cbn. tauto.
Qed.
Lemma upd_corr_get it c v D u : iter_ok it -> forall w, mem w (dgets (update_corrections it c (v, D)) u) = true <-> mem w (dgets c u) = true \/ (w = v /\ mem u D = true).
Proof.
  intros Hit w. unfold update_corrections. cbn [fst snd]. rewrite <- (iter_In it D u Hit). generalize (it D). intros l. revert c. induction l as [|a l IH]; intros c; cbn [fold_left].
  - cbn. tauto.
  - rewrite IH. cbn [In]. unfold dgets at 1. rewrite dget_dset. destruct (Nat.eqb_spec a u) as [E|E].
    + subst a. rewrite mem_sadd, orb_true_iff, Nat.eqb_eq. tauto.
    + fold (dgets c u). tauto.
Qed.
Lemma upd_corr_keys it c v D u : iter_ok it -> In u (dkeys (update_corrections it c (v, D))) <-> In u (dkeys c) \/ mem u D = true.
Proof.
  intros Hit. unfold update_corrections. cbn [fst snd]. rewrite <- (iter_In it D u Hit). generalize (it D). intros l. revert c. induction l as [|a l IH]; intros c; cbn [fold_left].
  - cbn. tauto.
  - rewrite IH. cbn [In]. rewrite dkeys_dset. intuition.
Qed.
Lemma upd_corr_NoDup it c p : NoDup (dkeys c) -> NoDup (dkeys (update_corrections it c p)).
Proof. unfold update_corrections. generalize (it (snd p)). intros l. revert c. induction l as [|a l IH]; intros c H; cbn [fold_left]; auto. apply IH, dset_NoDup; auto. Qed.
Lemma corr_fold it l : iter_ok it -> forall c, NoDup (dkeys c) -> let c' := fold_left (update_corrections it) l c in
  NoDup (dkeys c') /\ (forall u v, mem v (dgets c' u) = true <-> mem v (dgets c u) = true \/ exists D, In (v, D) l /\ mem u D = true) /\
  forall u, In u (dkeys c') <-> In u (dkeys c) \/ exists v D, In (v, D) l /\ mem u D = true.
Proof.
  intros Hit. induction l as [|[v0 D0] l IH]; intros c H; cbn [fold_left].
  - split; auto. split; intros; split; auto; intros [K|K]; auto; [destruct K as (D & [] & _)|destruct K as (v & D & [] & _)].
  - destruct (IH (update_corrections it c (v0, D0)) (upd_corr_NoDup it c _ H)) as (A & B & C). cbn zeta. split; auto. split.
    + intros u v. rewrite B, upd_corr_get by auto. cbn [In]. split.
      * intros [[K|[-> K]]|(D & K1 & K2)]; auto; right; [exists D0|exists D]; auto.
      * intros [K|(D & [[= -> ->]|K1] & K2)]; auto. right. exists D. auto.
    + intros u. rewrite C, upd_corr_keys by auto. cbn [In]. split.
      * intros [[K|K]|(v & D & K1 & K2)]; auto; right; [exists v0, D0|exists v, D]; auto.
      * intros [K|(v & D & [[= -> ->]|K1] & K2)]; auto. right. exists v, D. auto.
Qed.

(** the outcome of [u] conditions a correction of the measurement of [v], or of
    the output [v] *)
Definition depends (st : stdp) (u v : nat) : Prop :=
  (exists m, In m (sp_m st) /\ mc_node m = v /\ (mem u (mc_s m) = true \/ mem u (mc_t m) = true)) \/
  exists D, (In (v, D) (sp_x st) \/ In (v, D) (sp_z st)) /\ mem u D = true.
Section Extract.
Variables (it : iter) (st : stdp) (es : list (nat * nat)).
Hypotheses (Hit : iter_ok it) (W : std_wf st) (SO : std_out_ok st) (NI : NoDup (sp_in st)) (HE : edge_enum st es) (HL : has_loop st = false).
Let x := fold_left (update_corrections it) (map (fun m => (mc_node m, mc_s m)) (sp_m st) ++ sp_x st) [].
Let z := fold_left (update_corrections it) (map (fun m => (mc_node m, mc_t m)) (sp_m st) ++ sp_z st) [].
Let og := OG (std_graph st es) (sp_in st) (sp_out st) (fold_left (fun d m => dset d (mc_node m) (mc_meas m)) (sp_m st) []) (sp_c st).

Lemma sg_nodes n : In n (g_nodes (std_graph st es)) <-> std_node st n.
Proof.
  cbn [std_graph g_nodes]. rewrite (proj2 (uniq_spec _) n), !in_app_iff, in_flat_map. split.
  - intros [A|[A|(e & A1 & A2)]]; [left; auto|right; auto|]. destruct (sw_e _ W e A1) as (P & Q & _). destruct A2 as [<-|[<-|[]]]; auto.
  - intros [A|A]; auto.
Qed.
Lemma sg_ok : graph_ok (std_graph st es).
Proof.
  split; [apply uniq_spec|]. split.
  - cbn. eapply Permutation_NoDup; [apply Permutation_sym; exact HE|apply W].
  - intros e He. rewrite !sg_nodes. apply (edge_enum_nodes st es W HE e He).
Qed.
Lemma sg_adj u v : adjacent (std_graph st es) u v <-> In (edge_norm (u, v)) (sp_e st).
Proof.
  unfold adjacent. cbn [std_graph g_edges]. split.
  - intros [H|H]; [|rewrite edge_norm_swap]; (eapply Permutation_in; [exact HE|]); apply in_map; auto.
  - intros H. eapply Permutation_in in H; [|apply Permutation_sym; exact HE]. apply in_map_iff in H. destruct H as ([a b] & H1 & H2).
    unfold edge_norm in H1. cbn [fst snd] in H1. injection H1 as H3 H4.
    assert (K : (a = u /\ b = v) \/ (a = v /\ b = u)) by lia. destruct K as [[-> ->]|[-> ->]]; auto.
Qed.
Lemma sg_simple : simple (std_graph st es).
Proof.
  intros e He Q. cbn in He. assert (K := has_loop_enum st es HE). rewrite HL in K. apply not_true_iff_false in K. apply K. apply existsb_exists. exists e. split; auto. apply Nat.eqb_eq; auto.
Qed.
Lemma meas_dict l : forall d, NoDup (map mc_node l) -> NoDup (dkeys d) ->
  let d' := fold_left (fun d m => dset d (mc_node m) (mc_meas m)) l d in
  NoDup (dkeys d') /\ (forall n, In n (dkeys d') <-> In n (dkeys d) \/ In n (map mc_node l)) /\
  (forall m, In m l -> dget d' (mc_node m) = Some (mc_meas m)) /\ (forall n, ~ In n (map mc_node l) -> dget d' n = dget d n).
Proof.
  induction l as [|m l IH]; intros d N1 N2; cbn [fold_left].
  - split; auto. split; [intros n; cbn; tauto|]. split; [intros m []|auto].
  - cbn [map] in N1. inversion N1 as [|? ? K1 K2]; subst. destruct (IH (dset d (mc_node m) (mc_meas m)) K2 (dset_NoDup _ _ _ N2)) as (A & B & C & D). cbn zeta. split; auto. split; [|split].
    + intros n. rewrite B, dkeys_dset. cbn [map In]. intuition.
    + intros m' [<-|K]; auto. rewrite D by auto. rewrite dget_dset, Nat.eqb_refl. auto.
    + intros n K. cbn [map In] in K. rewrite D by auto. rewrite dget_dset. destruct (Nat.eqb_spec (mc_node m) n); auto. exfalso; auto.
Qed.
Lemma sog_ok : og_ok og.
Proof.
  destruct (meas_dict (sp_m st) [] (sw_mN _ W) (NoDup_nil _)) as (A & B & C & _). destruct SO as [NO HO]. constructor; cbn [og og_graph og_in og_out og_meas og_cliff].
  - apply sg_ok.
  - split; auto. intros n Hn. apply sg_nodes. left; auto.
  - split; auto. intros n Hn. apply sg_nodes. apply HO; auto.
  - split; [exact A|]. intros n. rewrite sg_nodes. rewrite B. cbn [dkeys map In]. rewrite HO. split.
    + intros [[]|K]. split; [apply (sw_mn _ W); auto|]. intros [_ Q]. auto.
    + intros [K1 K2]. right. destruct (in_dec Nat.eq_dec n (map mc_node (sp_m st))) as [K|K]; auto. exfalso. apply K2. split; auto.
  - split; [apply W|]. intros n Hn. apply HO. apply (sw_ck _ W); auto.
Qed.
Lemma std_opengraph_ok : (forall p, In p (sp_n st) -> snd p = SPlus) -> std_opengraph st es = Ok og.
Proof.
  intros HP. unfold std_opengraph. replace (forallb (fun p => is_plus (snd p)) (sp_n st)) with true by (symmetry; apply forallb_forall; intros p Hp; rewrite (HP p Hp); auto).
  cbn [negb]. rewrite HL. destruct (meas_dict (sp_m st) [] (sw_mN _ W) (NoDup_nil _)) as (A & _).
  destruct (og_make_spec (std_graph st es) (sp_in st) (sp_out st) (fold_left (fun d m => dset d (mc_node m) (mc_meas m)) (sp_m st) []) (sp_c st)) as [[_ K]|[K _]]; auto.
  - apply sg_ok. - apply W. - exfalso. apply K, sog_ok.
Qed.
Lemma corrects_depends u v : corrects x z u v <-> depends st u v.
Proof.
  rewrite corrects_dgets. unfold x, z.
  destruct (corr_fold it (map (fun m => (mc_node m, mc_s m)) (sp_m st) ++ sp_x st) Hit [] (NoDup_nil _)) as (_ & A & _).
  destruct (corr_fold it (map (fun m => (mc_node m, mc_t m)) (sp_m st) ++ sp_z st) Hit [] (NoDup_nil _)) as (_ & B & _).
  rewrite A, B. unfold dgets at 1 2. cbn [dget]. rewrite mem_empty. unfold depends. setoid_rewrite in_app_iff. setoid_rewrite in_map_iff. split.
  - intros [[K|(D & [(m & [= <- <-] & K1)|K1] & K2)]|[K|(D & [(m & [= <- <-] & K1)|K1] & K2)]]; try discriminate; eauto 8.
  - intros [(m & K1 & <- & [K2|K2])|(D & [K1|K1] & K2)]; [left|right|left|right]; right; eauto 8.
Qed.
Lemma xz_keys u : In u (dkeys x) \/ In u (dkeys z) -> exists v, depends st u v.
Proof.
  unfold x, z.
  destruct (corr_fold it (map (fun m => (mc_node m, mc_s m)) (sp_m st) ++ sp_x st) Hit [] (NoDup_nil _)) as (_ & _ & A).
  destruct (corr_fold it (map (fun m => (mc_node m, mc_t m)) (sp_m st) ++ sp_z st) Hit [] (NoDup_nil _)) as (_ & _ & B).
  rewrite A, B. cbn [dkeys map In]. setoid_rewrite in_app_iff. setoid_rewrite in_map_iff. unfold depends.
  intros [[[]|(v & D & [(m & [= <- <-] & K1)|K1] & K2)]|[[]|(v & D & [(m & [= <- <-] & K1)|K1] & K2)]]; eauto 8.
Qed.
Lemma x_get u v : mem v (dgets x u) = true <-> (exists m, In m (sp_m st) /\ mc_node m = v /\ mem u (mc_s m) = true) \/ exists D, In (v, D) (sp_x st) /\ mem u D = true.
Proof.
  unfold x. destruct (corr_fold it (map (fun m => (mc_node m, mc_s m)) (sp_m st) ++ sp_x st) Hit [] (NoDup_nil _)) as (_ & A & _).
  rewrite A. unfold dgets at 1. cbn [dget]. rewrite mem_empty. setoid_rewrite in_app_iff. setoid_rewrite in_map_iff. split.
  - intros [K|(D & [(m & [= <- <-] & K1)|K1] & K2)]; [discriminate|eauto 6|eauto].
  - intros [(m & K1 & <- & K2)|(D & K1 & K2)]; eauto 8.
Qed.
(** position in the measurement order *)
Lemma depends_meas u v : depends st u v -> std_meas st u /\ std_node st v.
Proof.
  intros [(m & K1 & <- & K2)|(D & K1 & K2)].
  - split; [|apply (sw_mn _ W); apply in_map; auto]. apply in_split in K1. destruct K1 as (a & b & E). assert (K := sw_ord _ W a m b E u K2). unfold std_meas. rewrite E, map_app. apply in_or_app; auto.
  - destruct K1 as [K1|K1].
    + split; [|apply (sw_xk _ W v (in_map fst _ _ K1))]. apply (sw_xd _ W v). unfold dz. rewrite (In_dget _ _ _ (sw_xN _ W) K1). auto.
    + split; [|apply (sw_zk _ W v (in_map fst _ _ K1))]. apply (sw_zd _ W v). unfold dz. rewrite (In_dget _ _ _ (sw_zN _ W) K1). auto.
Qed.
Lemma depends_order u v : depends st u v -> std_meas st v -> exists pre m post, sp_m st = pre ++ m :: post /\ mc_node m = v /\ In u (map mc_node pre).
Proof.
  intros [(m & K1 & <- & K2)|(D & K1 & K2)] Hv.
  - apply in_split in K1. destruct K1 as (a & b & E). exists a, m, b. split; auto. split; auto. eapply (sw_ord _ W); eauto.
  - exfalso. destruct K1 as [K1|K1]; [apply (sw_xk _ W v (in_map fst _ _ K1))|apply (sw_zk _ W v (in_map fst _ _ K1))]; auto.
Qed.
(** index of first occurrence *)
Fixpoint pos (l : list nat) (n : nat) : nat := match l with [] => 0 | k :: l' => if (k =? n)%nat then 0 else S (pos l' n) end.
Lemma pos_lt l n : In n l -> pos l n < length l.
Proof. induction l as [|k l IH]; intros H; [destruct H|]. cbn. destruct (Nat.eqb_spec k n); [lia|]. destruct H as [H|H]; [congruence|]. specialize (IH H). lia. Qed.
Lemma pos_app_l l r n : In n l -> pos (l ++ r) n = pos l n.
Proof. induction l as [|k l IH]; intros H; [destruct H|]. cbn. destruct (Nat.eqb_spec k n); auto. destruct H as [H|H]; [congruence|]. rewrite IH; auto. Qed.
Lemma pos_notin l n : ~ In n l -> pos l n = length l.
Proof. induction l as [|k l IH]; intros H; auto. cbn. destruct (Nat.eqb_spec k n) as [E|E]; [exfalso; apply H; left; auto|]. f_equal. apply IH. intros K. apply H; right; auto. Qed.
Lemma depends_pos u v : depends st u v -> pos (map mc_node (sp_m st)) u < pos (map mc_node (sp_m st)) v.
Proof.
  intros H. destruct (depends_meas u v H) as [Hu _]. destruct (in_dec Nat.eq_dec v (map mc_node (sp_m st))) as [K|K].
  - destruct (depends_order u v H K) as (pre & m & post & E & <- & I). rewrite E, map_app. cbn [map]. rewrite (pos_app_l _ _ u I).
    assert (ND := sw_mN _ W). rewrite E, map_app in ND. cbn [map] in ND.
    assert (Q : pos (map mc_node pre ++ mc_node m :: map mc_node post) (mc_node m) = length (map mc_node pre)).
    { apply NoDup_remove_2 in ND. revert ND. generalize (map mc_node pre) (map mc_node post) (mc_node m). clear. intros l r n. rewrite in_app_iff. intros H. induction l as [|k l IH]; cbn; [rewrite Nat.eqb_refl; auto|]. destruct (Nat.eqb_spec k n) as [E|E]; [exfalso; apply H; left; left; auto|]. f_equal. apply IH. intros [K|K]; apply H; [left; right|right]; auto. }
    rewrite Q. apply pos_lt; auto.
  - rewrite (pos_notin _ v K). apply pos_lt; auto.
Qed.
Lemma std_corr_ok : corr_ok og x z.
Proof.
  constructor.
  - intros u Hu. destruct (xz_keys u Hu) as (v & Hv). apply depends_meas in Hv. destruct Hv as [Hv _]. split; [apply sg_nodes, (sw_mn _ W); auto|]. intros K. apply SO in K. tauto.
  - intros u v H. apply corrects_depends in H. apply sg_nodes. apply (depends_meas u v H).
  - intros u H. assert (G : forall a b, clos_trans nat (corrects x z) a b -> pos (map mc_node (sp_m st)) a < pos (map mc_node (sp_m st)) b).
    { induction 1 as [a b K|a b c _ I1 _ I2]; [apply depends_pos, corrects_depends; auto|lia]. }
    specialize (G _ _ H). lia.
Qed.
Theorem std_to_xz_ok : (forall p, In p (sp_n st) -> snd p = SPlus) ->
  exists ls, std_to_xz it st es = Ok (XZ og x z ls) /\ order_ok og ls /\ corr_ordered x z ls.
Proof.
  intros HP. unfold std_to_xz. rewrite (std_opengraph_ok HP). cbn [rbind]. fold x z.
  destruct (from_mapping_decides it og x z Hit sog_ok) as [(ls & A & B & C & D)|[_ K]].
  - apply (corr_fold it _ Hit []). constructor.
  - apply (corr_fold it _ Hit []). constructor.
  - exists ls. auto.
  - exfalso. apply K, std_corr_ok.
Qed.
End Extract.

(** * The order given by a causal flow *)
Lemma NoDup_app_r' {A} (a b : list A) : NoDup (a ++ b) -> NoDup b.
Proof. induction a as [|x a IH]; auto. cbn. intros H. inversion H; auto. Qed.
Section FlowOrder.
Variables (st : stdp) (nbs : nat -> list nat).
Notation S_ := (nb_set st nbs).
(** every node of the order has a neighbour [f n] that no earlier measurement activates *)
Definition fresh_order (f : nat -> nat) (ord : list nat) : Prop :=
  NoDup ord /\ (forall a b, In a ord -> In b ord -> f a = f b -> a = b) /\ (forall n, In n ord -> In (f n) (nbs n)) /\
  forall pre n post, ord = pre ++ n :: post -> mem (f n) (S_ pre) = false.
Lemma fresh_card f ord pre n post : fresh_order f ord -> ord = pre ++ n :: post -> (card (S_ (pre ++ [n])) + length post <= card (S_ ord))%nat.
Proof.
  intros (ND & INJ & NB & FR) E. rewrite <- (map_length f post). unfold card at 1. rewrite <- app_length. apply card_list.
  - apply NoDup_app; [apply elems_NoDup| |].
    + assert (NDp : NoDup post) by (rewrite E in ND; apply NoDup_app_r' in ND; inversion ND; auto).
      assert (INp : forall a, In a post -> In a ord) by (intros a Ha; rewrite E; apply in_or_app; right; right; auto).
      revert NDp INp. clear - INJ. induction post as [|a l IH]; intros N1 N2; cbn; constructor; inversion N1 as [|? ? K1 K2]; subst.
      * intros K. apply in_map_iff in K. destruct K as (b & K3 & K4). assert (b = a) by (apply INJ; auto; [apply N2; right; auto|apply N2; left; auto]). subst. auto.
      * apply IH; auto. intros b Hb. apply N2. right; auto.
    + intros k K1 K2. apply elems_spec in K1. apply in_map_iff in K2. destruct K2 as (p & <- & K2). apply in_split in K2. destruct K2 as (a & b & ->).
      assert (K : mem (f p) (S_ (pre ++ n :: a)) = false) by (apply (FR _ p b); rewrite E, <- app_assoc; auto).
      apply not_true_iff_false in K. apply K. eapply nb_set_mono; [|exact K1]. intros y. rewrite !in_app_iff. cbn. tauto.
  - intros k. rewrite in_app_iff, elems_spec, in_map_iff. intros [K|(p & <- & K)].
    + eapply nb_set_mono; [|exact K]. intros y. rewrite E, !in_app_iff. cbn. tauto.
    + apply nb_set_mem. right. exists p. assert (In p ord) by (rewrite E; apply in_or_app; right; right; auto). split; auto.
Qed.
Lemma nb_set_perm a b : Permutation a b -> S_ a = S_ b.
Proof. intros P. apply nset_ext. intros k. apply eq_true_iff_eq. split; apply nb_set_mono; intros y; apply Permutation_in; auto. apply Permutation_sym; auto. Qed.
(** ... needs no more space than any other measurement order *)
Theorem fresh_optimal f ms ms' mx mx' : std_wf st -> std_out_ok st -> NoDup (sp_in st) -> has_loop st = false ->
  Permutation ms (sp_m st) -> Permutation ms' (sp_m st) -> ms_ordered ms -> ms_ordered ms' -> fresh_order f (map mc_node ms) ->
  std_max_space (set_m st ms) nbs = Ok mx -> std_max_space (set_m st ms') nbs = Ok mx' -> (mx <= mx')%Z.
Proof.
  intros W SO NI HL P P' O O' F E E'.
  destruct (std_max_space_char (set_m st ms) nbs (set_m_wf _ _ W P O) (set_m_out _ _ P SO) NI HL) as (m1 & E1 & H1). rewrite E in E1. injection E1 as <-.
  destruct (std_max_space_char (set_m st ms') nbs (set_m_wf _ _ W P' O') (set_m_out _ _ P' SO) NI HL) as (m2 & E2 & H2). rewrite E' in E2. injection E2 as <-.
  destruct (proj1 (H2 mx') (Z.le_refl _)) as (A & B & C). apply H1. cbn [set_m sp_in sp_m sp_out] in *.
  assert (PP : Permutation (map mc_node ms') (map mc_node ms)) by (apply Permutation_map; transitivity (sp_m st); auto; apply Permutation_sym; auto).
  assert (S1 : forall l, nb_set (set_m st ms) nbs l = S_ l) by reflexivity. assert (S2 : forall l, nb_set (set_m st ms') nbs l = S_ l) by reflexivity. rewrite S1, S2 in *.
  assert (LL : length ms' = length ms) by (rewrite <- (map_length mc_node ms'), <- (map_length mc_node ms); apply Permutation_length; auto).
  split; auto. split.
  - intros pre n post EQ. rewrite S1. assert (K := fresh_card f _ pre n post F EQ).
    destruct (exists_last (l := map mc_node ms')) as (l & y & Em).
    { intros Q. rewrite Q in PP. apply Permutation_nil in PP. rewrite PP in EQ. destruct pre; discriminate. }
    assert (Q := B l y [] Em). rewrite S2, <- Em, (nb_set_perm _ _ PP) in Q.
    assert (L1 : length ms = S (length l)). { rewrite <- LL, <- (map_length mc_node ms'), Em, app_length. cbn. lia. }
    assert (L2 : length ms = (length pre + S (length post))%nat). { rewrite <- (map_length mc_node ms), EQ, app_length. auto. }
    lia.
  - rewrite <- LL. rewrite <- (nb_set_perm (map mc_node ms' ++ sp_out st) (map mc_node ms ++ sp_out st)); auto. apply Permutation_app_tail; auto.
Qed.
End FlowOrder.

Section Causal.
Variables (it : iter) (st : stdp) (es : list (nat * nat)) (nbs : nat -> list nat).
Hypotheses (Hit : iter_ok it) (W : std_wf st) (SO : std_out_ok st) (NI : NoDup (sp_in st)) (HE : edge_enum st es) (HL : has_loop st = false) (NB : nbs_ok st nbs).
Let og := OG (std_graph st es) (sp_in st) (sp_out st) (fold_left (fun d m => dset d (mc_node m) (mc_meas m)) (sp_m st) []) (sp_c st).

Lemma split_two (l : list nat) a b : In a l -> In b l -> a <> b -> (exists p q r, l = p ++ a :: q ++ b :: r) \/ exists p q r, l = p ++ b :: q ++ a :: r.
Proof.
  intros Ha Hb N. apply in_split in Ha. destruct Ha as (p & q & ->). apply in_app_or in Hb. destruct Hb as [Hb|[Hb|Hb]]; [|congruence|].
  - apply in_split in Hb. destruct Hb as (x & y & ->). right. exists x, y, q. rewrite <- app_assoc. reflexivity.
  - apply in_split in Hb. destruct Hb as (x & y & ->). left. exists p, x, y. reflexivity.
Qed.
Lemma prec_asym ls u v : order_ok og ls -> prec ls u v -> prec ls v u -> False.
Proof. intros O (i & j & A & B & C) (i' & j' & A' & B' & C'). assert (i = j') by (eapply (ord_disj _ _ O); eauto). assert (j = i') by (eapply (ord_disj _ _ O); eauto). lia. Qed.
Lemma before_in ls ord u v : order_ok og ls -> order_compat og ls ord -> In u ord -> In v ord -> prec ls u v ->
  forall pre post, ord = pre ++ v :: post -> In u pre.
Proof.
  intros O (N & _ & C) Hu Hv P pre post E. rewrite E in Hu. apply in_app_or in Hu. destruct Hu as [Hu|[Hu|Hu]]; auto; exfalso.
  - subst u. eapply prec_asym; eauto.
  - apply in_split in Hu. destruct Hu as (a & b & ->). eapply C; eauto.
Qed.
Theorem h_causal_ok : (forall p, In p (sp_n st) -> snd p = SPlus) ->
  h_causal it es st = Ok None \/
  exists ord f, h_causal it es st = Ok (Some (ord, true)) /\ good_order st ord /\ fresh_order st nbs f ord.
Proof.
  intros HP. unfold h_causal. destruct (std_to_xz_ok it st es Hit W SO NI HE HL HP) as (ls & -> & OO & CO).
  cbn [xz_og xz_x xz_layers]. fold og in OO, CO |- *.
  set (x := fold_left (update_corrections it) (map (fun m => (mc_node m, mc_s m)) (sp_m st) ++ sp_x st) []) in *.
  set (z := fold_left (update_corrections it) (map (fun m => (mc_node m, mc_t m)) (sp_m st) ++ sp_z st) []) in *.
  assert (OG := sog_ok st es W SO NI HE). fold og in OG.
  destruct (forallb (fun p => is_bloch (snd p)) (og_meas og)) eqn:Eb; cbn [negb]; [|left; auto].
  assert (PL : planar og).
  { intros n m H. rewrite forallb_forall in Eb. apply dget_In in H. specialize (Eb _ H). cbn in Eb. destruct m; [eauto|discriminate]. }
  assert (ND : NoDup (dkeys x)) by (apply (corr_fold it _ Hit []); constructor).
  destruct (cf_check_decides it Hit (PF og x ls) OG ND PL) as [[-> CF]|[-> _]]; [|left; auto]. right. cbn [pf_og pf_cf pf_layers] in CF.
  destruct (total_order_ok og ls OG OO it (XZ og x z ls) Hit eq_refl eq_refl) as (ord & T & OC).
  assert (EO : flat_map it (rev (tl ls)) = ord).
  { unfold total_order in T. cbn [xz_og xz_layers] in T. destruct (seqb _ _); [|discriminate]. injection T as <-. unfold measured_layers.
    destruct (og_out og) eqn:Eo; [|destruct ls; reflexivity].
    destruct ls as [|l0 ls']; [reflexivity|]. exfalso. destruct (ord_ne _ _ OO 0 l0 eq_refl) as (n & Hn).
    assert (Hnn : In n (g_nodes (og_graph og))) by (apply (ord_cover _ _ OO); exists 0, l0; auto).
    destruct (proj2 (cf_dom _ _ (cfl_cf _ _ _ CF) n)) as (s & Hs); [split; auto; rewrite Eo; auto|].
    destruct (cfl_all _ _ _ CF n s Hs) as (j & _ & _ & (i & k & A & B & C) & _).
    assert (i = 0) by (eapply (ord_disj _ _ OO); [exact A|exists l0; auto]). lia. }
  rewrite EO. destruct OC as (NO & MO & CM). assert (OC := conj NO (conj MO CM)).
  assert (MO' : forall n, In n ord <-> std_meas st n).
  { intros n. rewrite MO. change (og_graph og) with (std_graph st es). rewrite (sg_nodes st es W). change (og_out og) with (sp_out st). rewrite (proj2 SO n). split.
    - intros [K1 K2]. destruct (in_dec Nat.eq_dec n (map mc_node (sp_m st))) as [K|K]; auto. exfalso. auto.
    - intros K. split; [apply (sw_mn _ W); auto|]. tauto. }
  exists ord, (fun n => hd 0 (elems (dgets x n))). split; auto.
  (* the correcting node *)
  assert (FC : forall n, In n ord -> let j := hd 0 (elems (dgets x n)) in adjacent (og_graph og) n j /\ ~ In j (sp_in st) /\ prec ls n j /\ forall k, adjacent (og_graph og) j k -> k <> n -> prec ls n k).
  { intros n Hn. destruct (proj2 (cf_dom _ _ (cfl_cf _ _ _ CF) n)) as (s & Hs); [apply MO; auto|].
    destruct (cfl_all _ _ _ CF n s Hs) as (j & J1 & J2 & J3 & J4).
    assert (EJ : elems (dgets x n) = [j]).
    { unfold dgets. rewrite Hs. apply Permutation_length_1_inv. apply NoDup_Permutation; [repeat constructor; auto|apply elems_NoDup|]. intros k. rewrite elems_spec, J1. cbn. split; [intros [K|[]]; auto|intros ->; auto]. }
    rewrite EJ. cbn [hd]. split; auto. split; [|auto]. apply (cf_img _ _ (cfl_cf _ _ _ CF) n s j Hs). apply J1; auto. }
  split.
  - split.
    + apply NoDup_Permutation; [exact NO|exact (sw_mN _ W)|exact MO'].
    + intros pre n post m k E Hm <- Hk. assert (DP : depends st k (mc_node m)) by (left; exists m; auto).
      destruct (depends_meas st W k _ DP) as [M1 _].
      eapply (before_in ls ord k (mc_node m) OO OC); [apply MO'; auto|apply MO'; apply in_map; auto| |exact E].
      apply CO. apply corrects_depends; auto.
  - split; auto. split; [|split].
    + intros a b Ha Hb E. destruct (Nat.eq_dec a b) as [|N]; auto. exfalso. destruct (FC a Ha) as (A1 & _ & _ & A4). destruct (FC b Hb) as (B1 & _ & _ & B4).
      assert (SY : forall u v, adjacent (og_graph og) u v -> adjacent (og_graph og) v u) by (unfold adjacent; tauto).
      eapply (prec_asym ls a b OO); [apply A4; auto; rewrite E; apply SY; auto|apply B4; auto; rewrite <- E; apply SY; auto].
    + intros n Hn. destruct (FC n Hn) as (A & _). apply NB. apply (sg_adj st es HE). exact A.
    + intros pre n post E. apply not_true_iff_false. rewrite nb_set_mem. assert (Hn : In n ord) by (rewrite E; apply in_or_app; right; left; auto).
      destruct (FC n Hn) as (A1 & A2 & A3 & A4). set (j := hd 0 (elems (dgets x n))) in *. intros [K|(k & K1 & K2)]; [auto|].
      assert (PK : prec ls n k).
      { destruct K2 as [->|K2]; auto. apply A4.
        - apply (sg_adj st es HE). rewrite edge_norm_swap. apply NB; auto.
        - intros ->. rewrite E in NO. apply NoDup_remove_2 in NO. apply NO, in_or_app; auto. }
      apply in_split in K1. destruct K1 as (a & b & ->). apply (CM a k b n post); auto. rewrite E, <- app_assoc. reflexivity.
Qed.
End Causal.

(** * minimize_space() with the default heuristics *)
(** space_minimization.py:237-241 DEFAULT_HEURISTICS *)
Definition default_heuristics (it : iter) (es : list (nat * nat)) : list heuristic := [h_causal it es; h_greedy it; h_unchanged].
Theorem minimize_default_ok it st es nbs : iter_ok it -> std_wf st -> std_out_ok st -> NoDup (sp_in st) -> edge_enum st es -> has_loop st = false -> nbs_ok st nbs ->
  (forall p, In p (sp_n st) -> snd p = SPlus) ->
  exists st' sp sp', minimize_space nbs st (default_heuristics it es) = Ok st' /\ reordered st st' /\
    std_max_space st nbs = Ok sp /\ std_max_space st' nbs = Ok sp' /\ (sp' <= sp)%Z.
Proof.
  intros Hit W SO NI HE HL NB HP.
  assert (H1 := h_causal_ok it st es nbs Hit W SO NI HE HL NB HP). destruct (h_greedy_ok it st Hit W SO HL) as (og & G1 & G2).
  destruct (min_loop_ok st nbs W SO NI HL (default_heuristics it es) None) as (st' & A & B & sp' & C & D); auto.
  { intros h [<-|[<-|[<-|[]]]].
    - destruct H1 as [H1|(ord & f & H1 & H2 & _)]; [left; auto|right; eauto].
    - right; eauto.
    - apply h_unchanged_ok; auto. }
  destruct (reordered_space st nbs W SO NI HL st (reordered_refl st W)) as (sp & S). exists st', sp, sp'. split; auto. split; auto. split; auto. split; auto.
  destruct D as [(h & ord & D1 & D2 & D3)|[_ D]].
  - destruct D1 as [<-|[<-|[<-|[]]]].
    + destruct H1 as [H1|(ord' & f & H1 & H2 & H3)]; [congruence|]. rewrite D2 in H1. injection H1 as <-.
      destruct B as (ms & -> & P & O). rewrite <- D3 in H3. cbn [set_m sp_m] in H3.
      exact (fresh_optimal st nbs f ms (sp_m st) sp' sp W SO NI HL P (Permutation_refl _) O (sw_ord _ W) H3 C (eq_trans (f_equal (fun s => std_max_space s nbs) (set_m_self st)) S)).
    + congruence.
    + discriminate.
  - destruct (m_sort_ok (sp_m st) (map mc_node (sp_m st)) (fun n H => H)) as (l & E & M & I).
    destruct (m_sort_perm _ _ _ (sw_mN _ W) (Permutation_refl _) E) as [P _].
    assert (EL : l = sp_m st).
    { assert (ND := sw_mN _ W). revert M I ND. clear. assert (G : forall a b : list mcmd, map mc_node a = map mc_node b -> (forall m, In m a -> In m (sp_m st)) -> (forall m, In m b -> In m (sp_m st)) -> NoDup (map mc_node (sp_m st)) -> a = b).
      { induction a as [|m a IH]; intros [|m' b] E H1 H2 ND; auto; try discriminate. injection E as E1 E2. f_equal; [apply (NoDup_map_eq mc_node (sp_m st)); auto; [apply H1; left; auto|apply H2; left; auto]|]. apply IH; auto; intros; [apply H1|apply H2]; right; auto. }
      intros M I ND. apply G; auto. }
    subst l. eapply (D h_unchanged); [right; right; left; auto|reflexivity|exact E|rewrite set_m_self; auto].
Qed.

(** * parallelize_pattern *)
(** optimization.py:389-396 process_domain: the state is (dag, indegree_map) *)
Definition pl_node (excl : nset) (v : nat) (s : dict nset * dict Z) (u : nat) : res (dict nset * dict Z) :=
  if mem v excl || mem u excl then Ok s else
  match dget (fst s) u with
  | None => Err EKey
  | Some d => if mem v d then Ok s
              else Ok (dset (fst s) u (sadd v d), dset (snd s) v ((match dget (snd s) v with Some k => k | None => 0 end) + 1)%Z)
  end.
Definition pl_domain (it : iter) (excl : nset) (s : dict nset * dict Z) (p : nat * nset) : res (dict nset * dict Z) :=
  rfold (pl_node excl (fst p)) (it (snd p)) s.
(** optimization.py:358-416 partial_order_layers *)
Definition std_layers (it : iter) (st : stdp) : res (list nset) :=
  let oset := of_list (sp_out st) in
  let zero := sdiff (of_list (sp_in st ++ map fst (sp_n st))) oset in
  let dag := fold_left (fun d n => dset d n sempty) (it zero) [] in
  do s <- rfold (pl_domain it oset) (map (fun m => (mc_node m, sunion (mc_s m) (mc_t m))) (sp_m st) ++ sp_z st ++ sp_x st) (dag, []);
  let zero := sdiff zero (of_list (dkeys (snd s))) in
  do g <- topological_generations it (dget (fst s)) (snd s) zero;
  match g with
  | None => Err EValue
  | Some g => Ok (if is_empty oset then rev g else oset :: rev g)
  end.
(** pattern.py:1153-1162 _measurement_order_depth *)
Definition measurement_order_depth (it : iter) (st : stdp) : res (list nat) :=
  do ls <- std_layers it st; Ok (flat_map it (rev (tl ls))).

(** ** the layers *)
(** [u] must be measured before [v]: an outcome of [u] occurs in a domain of the measurement of [v] *)
Definition mdep (st : stdp) (u v : nat) : Prop := exists m, In m (sp_m st) /\ mc_node m = v /\ (mem u (mc_s m) = true \/ mem u (mc_t m) = true).
(** layers of measurements, earliest first: they partition the measured nodes, every
    dependency goes to a later layer, and no node could be moved to an earlier layer *)
Record meas_layers (st : stdp) (gens : list nset) : Prop := {
  ml_cover : forall n, std_meas st n <-> exists i, in_layer gens i n;
  ml_disj : forall i j n, in_layer gens i n -> in_layer gens j n -> i = j;
  ml_ne : forall i l, nth_error gens i = Some l -> exists n, mem n l = true;
  ml_dep : forall u v i j, mdep st u v -> in_layer gens i u -> in_layer gens j v -> i < j;
  ml_early : forall v i, in_layer gens (S i) v -> exists u, mdep st u v /\ in_layer gens i u }.
Section Layers.
Variables (it : iter) (st : stdp).
Hypotheses (Hit : iter_ok it) (W : std_wf st) (SO : std_out_ok st).
Let oset := of_list (sp_out st).
Definition pinv (E : nat -> nat -> Prop) (s : dict nset * dict Z) : Prop := cinv E s /\ forall n, std_meas st n -> exists d, dget (fst s) n = Some d.
Lemma pinv_ext E E' s : (forall u v, E u v <-> E' u v) -> pinv E s -> pinv E' s.
Proof. intros H [A B]. split; auto. eapply cinv_ext; eauto. Qed.
Lemma out_meas n : std_meas st n -> mem n oset = false.
Proof. intros H. apply not_true_iff_false. unfold oset. rewrite mem_of_list, (proj2 SO n). tauto. Qed.
Lemma pl_node_ok v s u E : pinv E s -> (mem v oset = true \/ std_meas st u) ->
  exists s', pl_node oset v s u = Ok s' /\ pinv (fun a b => E a b \/ (mem v oset = false /\ a = u /\ b = v)) s'.
Proof.
  intros [I K] H. unfold pl_node. destruct (mem v oset) eqn:Ev; cbn [orb].
  - exists s. split; auto. eapply pinv_ext; [|split; eauto]. cbn. intros a b. intuition discriminate.
  - destruct H as [H|H]; [discriminate|]. rewrite (out_meas u H). destruct (K u H) as (d & Hd). rewrite Hd.
    destruct (cl_node_ok u s v E I) as (s1 & E1 & I1). unfold cl_node in E1. unfold dgets in E1. rewrite Hd in E1.
    destruct (mem v d) eqn:Em; injection E1 as <-; eexists; (split; [reflexivity|]); (split; [eapply cinv_ext; [|exact I1]; cbn; tauto|auto]).
    cbn [fst]. intros n Hn. rewrite dget_dset. destruct (Nat.eqb_spec u n); eauto.
Qed.
Lemma pl_nodes_ok v l : forall s E, pinv E s -> (mem v oset = true \/ forall u, In u l -> std_meas st u) ->
  exists s', rfold (pl_node oset v) l s = Ok s' /\ pinv (fun a b => E a b \/ (mem v oset = false /\ In a l /\ b = v)) s'.
Proof.
  induction l as [|u l IH]; intros s E I H; cbn [rfold].
  - exists s. split; auto. eapply pinv_ext; [|exact I]. cbn. tauto.
  - destruct (pl_node_ok v s u E I) as (s1 & -> & I1); [destruct H as [H|H]; [auto|right; apply H; left; auto]|].
    destruct (IH s1 _ I1) as (s2 & E2 & I2); [destruct H as [H|H]; [auto|right; intros; apply H; right; auto]|]. exists s2. split; auto.
    eapply pinv_ext; [|exact I2]. cbn. intros a b. intuition; subst; tauto.
Qed.
Lemma pl_domains_ok : forall l s E, pinv E s -> (forall v D, In (v, D) l -> mem v oset = true \/ forall u, mem u D = true -> std_meas st u) ->
  exists s', rfold (pl_domain it oset) l s = Ok s' /\ pinv (fun a b => E a b \/ (mem b oset = false /\ exists D, In (b, D) l /\ mem a D = true)) s'.
Proof.
  induction l as [|[v D] l IH]; intros s E I H; cbn [rfold].
  - exists s. split; auto. eapply pinv_ext; [|exact I]. cbn. intros a b. split; auto. intros [K|(_ & D & [] & _)]; auto.
  - unfold pl_domain at 1. cbn [fst snd]. destruct (pl_nodes_ok v (it D) s E I) as (s1 & -> & I1).
    { destruct (H v D (or_introl eq_refl)) as [K|K]; auto. right. intros u Hu. apply (iter_In _ _ _ Hit) in Hu. auto. }
    destruct (IH s1 _ I1) as (s2 & E2 & I2); [intros v' D' K; apply H; right; auto|]. exists s2. split; auto.
    eapply pinv_ext; [|exact I2]. cbn. intros a b. rewrite (iter_In _ _ _ Hit). split.
    + intros [[K|(K1 & K2 & ->)]|(K1 & D' & K2 & K3)]; [auto| |]; right; split; auto; [exists D|exists D']; auto.
    + intros [K|(K1 & D' & [K2|K2] & K3)]; [auto|injection K2 as <- <-; auto|]. right. split; auto. eauto.
Qed.
Lemma dag_init l : forall d : dict nset, NoDup (dkeys d) -> (forall u v, mem v (dgets d u) = false) ->
  let d' := fold_left (fun d n => dset d n sempty) l d in (forall u v, mem v (dgets d' u) = false) /\ forall n, In n l \/ (exists s, dget d n = Some s) -> exists s, dget d' n = Some s.
Proof.
  induction l as [|k l IH]; intros d ND H; cbn [fold_left]; cbn zeta.
  - split; auto. intros n [[]|K]; auto.
  - destruct (IH (dset d k sempty)) as [A B]; [apply dset_NoDup; auto| |].
    + intros u v. unfold dgets. rewrite dget_dset. destruct (k =? u)%nat; [apply mem_empty|]. apply H.
    + split; auto. intros n K. apply B. rewrite dget_dset. destruct (Nat.eqb_spec k n) as [Ek|Ek]; [right; eauto|]. destruct K as [[K|K]|K]; [congruence|auto|auto].
Qed.
Lemma mdep_meas u v : mdep st u v -> std_meas st u /\ std_meas st v.
Proof.
  intros (m & K1 & <- & K2). split; [|apply in_map; auto]. apply (depends_meas st W u (mc_node m)). left. exists m; auto.
Qed.
Theorem std_layers_ok : exists gens, std_layers it st = Ok (if is_empty oset then rev gens else oset :: rev gens) /\ meas_layers st gens.
Proof.
  unfold std_layers. fold oset. cbv zeta. set (zero := sdiff (of_list (sp_in st ++ map fst (sp_n st))) oset).
  assert (HZ : forall n, mem n zero = true <-> std_meas st n).
  { intros n. unfold zero. rewrite mem_sdiff, andb_true_iff, negb_true_iff, <- not_true_iff_false. unfold oset. rewrite !mem_of_list, (proj2 SO n).
    assert (Q : In n (sp_in st ++ map fst (sp_n st)) <-> std_node st n) by (rewrite in_app_iff; reflexivity). rewrite Q. split.
    - intros [A B]. destruct (in_dec Nat.eq_dec n (map mc_node (sp_m st))) as [K|K]; auto. exfalso; auto.
    - intros K. split; [apply (sw_mn _ W); auto|tauto]. }
  destruct (dag_init (it zero) [] (NoDup_nil _)) as [D1 D2]; [intros; apply mem_empty|]. set (dag := fold_left (fun (d : dict nset) n => dset d n sempty) (it zero) []) in *.
  assert (I0 : pinv (fun _ _ => False) (dag, [])).
  { split.
    - split; [intros u v; cbn [fst]; rewrite D1; intuition discriminate|]. split; [constructor|].
      intros v k. cbn. split; [discriminate|]. intros (K & l & _ & L & ->). destruct l as [|a l]; [simpl in K; lia|]. destruct (proj1 (L a)); left; auto.
    - intros n Hn. apply D2. left. apply (iter_In _ _ _ Hit), HZ; auto. }
  destruct (pl_domains_ok (map (fun m => (mc_node m, sunion (mc_s m) (mc_t m))) (sp_m st) ++ sp_z st ++ sp_x st) _ _ I0) as (s & -> & I1).
  { intros v D H. rewrite !in_app_iff, in_map_iff in H. destruct H as [(m & [= <- <-] & Hm)|H].
    - right. intros u Hu. apply (mdep_meas u (mc_node m)). exists m. rewrite mem_sunion, orb_true_iff in Hu. auto.
    - left. apply mem_of_list, (proj2 SO v). destruct H as [H|H]; [apply (sw_zk _ W v (in_map fst _ _ H))|apply (sw_xk _ W v (in_map fst _ _ H))]. }
  cbn [rbind].
  assert (I2 : pinv (mdep st) s).
  { eapply pinv_ext; [|exact I1]. cbn. intros u v. split.
    - intros [[]|(K1 & D & K2 & K3)]. rewrite !in_app_iff, in_map_iff in K2. destruct K2 as [(m & [= <- <-] & Hm)|K2].
      + exists m. rewrite mem_sunion, orb_true_iff in K3. auto.
      + exfalso. apply not_true_iff_false in K1. apply K1, mem_of_list, (proj2 SO v). destruct K2 as [H|H]; [apply (sw_zk _ W v (in_map fst _ _ H))|apply (sw_xk _ W v (in_map fst _ _ H))].
    - intros H. right. split; [apply out_meas, (mdep_meas u v H)|]. destruct H as (m & K1 & <- & K2). exists (sunion (mc_s m) (mc_t m)). rewrite mem_sunion, orb_true_iff. split; auto.
      apply in_or_app. left. apply in_map_iff. exists m; auto. }
  clear I1 I0. destruct I2 as [(IA & IB & IC) IK].
  set (V := map mc_node (sp_m st)).
  assert (HE : forall u v, edge (dget (fst s)) u v <-> mdep st u v).
  { intros u v. unfold edge. rewrite <- IA, dgets_mem. reflexivity. }
  assert (IKy : forall v, In v (dkeys (snd s)) <-> exists u, mdep st u v).
  { intros v. split.
    - intros K. apply dget_keys in K. destruct K as (k & K). apply IC in K. destruct K as (K & l & _ & L & ->).
      destruct l as [|a l]; [simpl in K; lia|]. exists a. apply L. left; auto.
    - intros (u & K). destruct (dget (snd s) v) eqn:Q; [eapply dget_is_key; eauto|].
      exfalso. set (l := nodup Nat.eq_dec (filter (fun u => mem v (dgets (fst s) u)) V)).
      assert (Hl : forall a, In a l <-> mdep st a v).
      { intros a. unfold l. rewrite nodup_In, filter_In, IA. split; [tauto|]. intros H. split; auto. apply (mdep_meas a v H). }
      assert (Y : dget (snd s) v = Some (Z.of_nat (length l))); [|congruence].
      apply IC. split; [|exists l; split; [apply NoDup_nodup|auto]]. apply Hl in K. destruct l; [destruct K|simpl; lia]. }
  assert (TI : tg_input V (dget (fst s)) (snd s) (sdiff zero (of_list (dkeys (snd s))))).
  { constructor.
    - apply (sw_mN _ W).
    - intros u Hu. destruct (IK u Hu) as (d & Hd). exists d. split; auto. intros v Hv. apply (mdep_meas u v), HE. exists d; auto.
    - auto.
    - intros v k. rewrite IC. split.
      + intros (K & l & L1 & L2 & ->). split.
        * destruct l as [|a l]; [simpl in K; lia|]. apply (mdep_meas a v), L2. left; auto.
        * split; auto. exists l. split; auto. split; auto. intros u. rewrite L2, HE. split; [|tauto]. intros C. split; auto. apply (mdep_meas u v C).
      + intros (_ & K & l & L1 & L2 & ->). split; auto. exists l. split; auto. split; auto. intros u. rewrite L2, HE. split; [tauto|]. intros C. split; auto. apply (mdep_meas u v C).
    - intros v. rewrite mem_sdiff, andb_true_iff, negb_true_iff, HZ, <- not_true_iff_false, mem_of_list, IKy. split.
      + intros [K1 K2]. split; auto. intros u _ C. apply K2. exists u. apply HE; auto.
      + intros [K1 K2]. split; auto. intros (u & C). apply (K2 u); [apply (mdep_meas u v C)|apply HE; auto]. }
  destruct (tg_correct it V _ _ _ Hit TI) as [[_ C]|(g & -> & G)].
  { exfalso. destruct C as (u & C). assert (X : forall a b, clos_trans nat (fun u v => In u V /\ In v V /\ edge (dget (fst s)) u v) a b -> pos V a < pos V b).
    { induction 1 as [a b (_ & _ & K)|a b c _ I1 _ I2]; [|lia]. apply (depends_pos st W). apply HE in K. destruct K as (m & K1 & K2 & K3). left. exists m; auto. }
    specialize (X _ _ C). lia. }
  cbn [rbind]. exists g. split; auto. destruct G as [G1 G2 G3 G4 G5]. constructor; auto.
  - intros u v i j H. apply G4; [apply (mdep_meas u v H)|apply HE; auto].
  - intros v i H. destruct (G5 v i H) as (u & H1 & H2). exists u. split; auto. apply HE; auto.
Qed.
End Layers.
