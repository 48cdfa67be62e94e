(** Extending the inputs of an open graph by ancillas measured along X: the
    extended graph has a Pauli flow, and its correction sets for the ancillas
    are the images of X on the inputs.  Proof infrastructure for C50. *)
From Coq Require Import Reals Lra Arith List Bool Lia Permutation FunctionalExtensionality.
From Verif Require Import Cplx Mat2 NSet QState Fundamentals Clifford Measure Layer Pattern Standardize NodeIndex OpenGraph FlowSpec Flow FlowWF FlowPat OGMap Focus FlowSem GState GPFlow PropGPFlow Transpile Circuit Swaps PauliStr PauliOp Berg Ladder PropCircExt FlowCirc FlowCircSem FlowCircStr FlowCircLoad FlowCircMap.
Import ListNotations.
Local Open Scope list_scope.

Lemma dget_app {A} (a b : dict A) k : dget (a ++ b) k = match dget a k with Some v => Some v | None => dget b k end.
Proof. induction a as [|[i v] a IH]; auto. cbn [app dget]. destruct (i =? k)%nat; auto. Qed.
Lemma oddp_app a b x n : oddp (a ++ b) x n = xorb (oddp a x n) (oddp b x n).
Proof. induction a as [|e a IH]; [symmetry; apply xorb_false_l|]. cbn [app oddp fold_right]. fold (oddp (a ++ b) x n) (oddp a x n). rewrite IH, xorb_assoc. auto. Qed.
Lemma gx_app {A} f (l l' : list A) : gx f (l ++ l') = xorb (gx f l) (gx f l').
Proof. induction l as [|a l IH]; [symmetry; apply xorb_false_l|]. cbn [app gx fold_right]. fold (gx f (l ++ l')) (gx f l). rewrite IH, xorb_assoc. auto. Qed.
Lemma gx_zero {A} f (l : list A) : (forall a, In a l -> f a = false) -> gx f l = false.
Proof. intros H. transitivity (gx (fun _ : A => false) l); [|apply gx_none]. apply gx_ext. auto. Qed.

Lemma Forall_filter_nil {A} (p : A -> bool) l : (forall a, In a l -> p a = false) -> filter p l = [].
Proof. induction l as [|a l IH]; intros H; auto. cbn [filter]. rewrite H by (left; auto). apply IH. intros; apply H; right; auto. Qed.
Section Ext.
Variables (og og' : opengraph) (P : list (nat * nat)).
Hypothesis OK : og_ok og.
Hypothesis SI : simple (og_graph og).
Hypothesis NI1 : NoDup (map fst P).
Hypothesis NI2 : NoDup (map snd P).
Hypothesis PI : forall i, In i (map fst P) <-> In i (og_in og).
Hypothesis PN : forall k, In k (map snd P) -> ~ In k (g_nodes (og_graph og)).
Hypothesis PL : forall i k, In (i, k) P -> (i < k)%nat.
Hypothesis EN : g_nodes (og_graph og') = g_nodes (og_graph og) ++ map snd P.
Hypothesis EE : g_edges (og_graph og') = g_edges (og_graph og) ++ P.
Hypothesis EI : NoDup (og_in og') /\ forall k, In k (og_in og') <-> In k (map snd P).
Hypothesis EO : og_out og' = og_out og.
Hypothesis EM : NoDup (dkeys (og_meas og')) /\ forall n, dget (og_meas og') n = if lmem n (map snd P) then Some (MPauli AX Plus) else dget (og_meas og) n.
Hypothesis EC : og_cliff og' = og_cliff og.
Local Notation L := (g_nodes (og_graph og)).
Lemma P_old i k : In (i, k) P -> In i L /\ In i (og_in og).
Proof. intros H. assert (K : In i (og_in og)) by (apply PI, in_map_iff; exists (i, k); auto). split; auto. apply (ok_in _ OK); auto. Qed.
Lemma P_new i k : In (i, k) P -> In k (map snd P) /\ ~ In k L.
Proof. intros H. assert (K : In k (map snd P)) by (apply in_map_iff; exists (i, k); auto). split; auto. Qed.
Lemma key_get {A} (d : dict A) k : In k (dkeys d) <-> exists v, dget d k = Some v.
Proof. split; [apply dget_keys|]. intros (v & E). eapply dget_is_key; eauto. Qed.
Lemma ext_ok : og_ok og'.
Proof.
  destruct (ok_graph _ OK) as (G1 & G2 & G3). constructor.
  - split; [|split].
    + rewrite EN. apply Layer.NoDup_app; auto. intros n A B. apply PN in B. auto.
    + rewrite EE, map_app. apply Layer.NoDup_app; auto.
      * assert (E : map edge_norm P = P). { rewrite <- (map_id P) at 2. apply map_ext_in. intros [i k] H. apply PL in H. unfold edge_norm. cbn [fst snd]. rewrite Nat.min_l, Nat.max_r by lia. auto. }
        rewrite E. apply (NoDup_map_inv fst). auto.
      * intros e A B. apply in_map_iff in A, B. destruct A as (a & <- & A), B as ([i k] & B1 & B). destruct (P_new i k B) as [_ K]. apply K. destruct (G3 a A) as [X Y].
        pose proof (PL i k B). unfold edge_norm in B1. cbn [fst snd] in B1. injection B1 as B1 B2. rewrite Nat.max_r in B2 by lia. rewrite B2. destruct (Nat.max_spec (fst a) (snd a)) as [[_ ->]|[_ ->]]; auto.
    + intros e. rewrite EE, EN, !in_app_iff. intros [H|H].
      * destruct (G3 e H). auto.
      * destruct e as [i k]. cbn [fst snd]. split; [left; apply (P_old i k H)|right; apply (P_new i k H)].
  - split; [apply EI|]. intros n H. rewrite EN, in_app_iff. right. apply EI; auto.
  - rewrite EO, EN. split; [apply (ok_out _ OK)|]. intros n H. apply in_or_app. left. apply (ok_out _ OK); auto.
  - split; [apply EM|]. intros n. rewrite key_get, (proj2 EM), EO, EN, in_app_iff. destruct (lmem n (map snd P)) eqn:E.
    + apply lmem_In in E. split; [|eauto]. intros _. split; auto. intros K. apply (PN n E). apply (ok_out _ OK); auto.
    + rewrite <- key_get, (proj2 (ok_meas _ OK)). apply not_true_iff_false in E. rewrite lmem_In in E. tauto.
  - rewrite EC, EO. apply (ok_cliff _ OK).
Qed.
Lemma ext_simple : simple (og_graph og').
Proof. intros e. rewrite EE, in_app_iff. intros [H|H]; [apply SI; auto|]. destruct e as [i k]. apply PL in H. cbn. lia. Qed.
(** odd neighbourhoods of sets of old nodes *)
Lemma sz_old S n : (forall k, mem k S = true -> In k L) -> In n L -> sz og' S n = sz og S n.
Proof.
  intros HS Hn. unfold sz. rewrite EE, oddp_app. rewrite <- xorb_false_r. f_equal. 
  assert (G : forall l, (forall p, In p l -> In p P) -> oddp l (sx S) n = false).
  { induction l as [|[i k] l IH]; intros H; auto. cbn [oddp fold_right fst snd]. fold (oddp l (sx S) n). rewrite IH by (intros; apply H; right; auto).
    destruct (P_new i k) as [_ K]; [apply H; left; auto|]. unfold czz. assert (sx S k = false) as -> by (apply not_true_iff_false; intros X; apply K, HS; auto).
    assert ((n =? k)%nat = false) as -> by (apply Nat.eqb_neq; intros ->; auto). rewrite andb_false_r. auto. }
  apply G. auto.
Qed.
Lemma sz_new S i k : In (i, k) P -> sz og' S k = sx S i.
Proof.
  intros HP. unfold sz. rewrite EE, oddp_app. destruct (P_new i k HP) as [_ NK].
  assert (E1 : oddp (g_edges (og_graph og)) (sx S) k = false). { apply not_true_iff_false. intros H. apply NK. eapply (sz_in og S); eauto. }
  rewrite E1, xorb_false_l.
  assert (G0 : forall l, (forall p, In p l -> In p P) -> ~ In k (map snd l) -> oddp l (sx S) k = false).
  { induction l as [|[a b] l IH]; intros H N; auto. cbn [oddp fold_right fst snd]. fold (oddp l (sx S) k). rewrite IH; [|intros; apply H; right; auto|intros X; apply N; right; auto].
    unfold czz. assert ((k =? a)%nat = false) as -> by (apply Nat.eqb_neq; intros ->; apply NK; apply (P_old a b), H; left; auto).
    assert ((k =? b)%nat = false) as -> by (apply Nat.eqb_neq; intros ->; apply N; left; auto). auto. }
  assert (G : forall l, (forall p, In p l -> In p P) -> NoDup (map snd l) -> In (i, k) l -> oddp l (sx S) k = sx S i).
  { induction l as [|[a b] l IH]; intros H ND I; [destruct I|]. cbn [map snd] in ND. inversion ND as [|? ? N1 N2]; subst. cbn [oddp fold_right fst snd]. fold (oddp l (sx S) k).
    unfold czz. assert ((k =? a)%nat = false) as -> by (apply Nat.eqb_neq; intros ->; apply NK; apply (P_old a b), H; left; auto). cbn [andb]. rewrite xorb_false_l. destruct I as [I|I].
    - injection I as -> ->. rewrite Nat.eqb_refl, G0 by (auto; intros; apply H; right; auto). cbn. apply xorb_false_r.
    - assert ((k =? b)%nat = false) as ->. { apply Nat.eqb_neq. intros ->. apply N1, in_map_iff. exists (i, b). auto. } cbn [andb]. rewrite xorb_false_l. apply IH; auto. intros; apply H; right; auto. }
  apply G; auto.
Qed.
Lemma snd_pair k : In k (map snd P) -> exists i, In (i, k) P.
Proof. intros H. apply in_map_iff in H. destruct H as ([i k'] & <- & H). eauto. Qed.
Lemma label_new k l : In k (map snd P) -> labelled og' k l <-> l = LAxis AX.
Proof.
  intros H. unfold labelled. rewrite (proj2 EM), (proj2 (lmem_In k _) H). split; [intros (m & [= <-] & <-); auto|]. intros ->. eexists. split; [reflexivity|]. auto.
Qed.
Lemma label_old k l : ~ In k (map snd P) -> labelled og' k l <-> labelled og k l.
Proof.
  intros H. assert (E : lmem k (map snd P) = false) by (apply not_true_iff_false; rewrite lmem_In; auto). unfold labelled. pose proof (proj2 EM k) as K. rewrite E in K. rewrite K. tauto.
Qed.
(** * The flow of the extended graph *)
Variables (cf : dict nset) (ls : list nset).
Hypothesis PF : pauli_flow og cf ls.
Hypothesis PNE : P <> [].
Hypothesis LNE : ls <> [].
Definition ext_cf : dict nset := cf ++ map (fun p => (snd p, sing (fst p))) P.
Definition ext_ls : list nset := ls ++ [of_list (map snd P)].
Lemma cf_new k : In k (map snd P) -> dget cf k = None.
Proof. intros H. destruct (dget cf k) as [s|] eqn:E; auto. exfalso. apply (PN k H). apply (cf_dom _ _ (pfl_cf _ _ _ PF) k). eauto. Qed.
Lemma ext_get_old k : ~ In k (map snd P) -> dget ext_cf k = dget cf k.
Proof.
  intros H. unfold ext_cf. rewrite dget_app. destruct (dget cf k); auto. apply dget_None. intros K. apply H. unfold dkeys in K. rewrite map_map in K. exact K.
Qed.
Lemma ext_get_new i k : In (i, k) P -> dget ext_cf k = Some (sing i).
Proof.
  intros H. unfold ext_cf. rewrite dget_app, cf_new by apply (P_new i k H). apply In_dget.
  - unfold dkeys. rewrite map_map. exact NI2.
  - apply in_map_iff. exists (i, k). auto.
Qed.
Lemma lay_old i n : in_layer ls i n -> in_layer ext_ls i n.
Proof. intros (l & A & B). exists l. split; auto. unfold ext_ls. rewrite nth_error_app1; auto. apply nth_error_Some. congruence. Qed.
Lemma lay_new k : In k (map snd P) -> in_layer ext_ls (length ls) k.
Proof. intros H. exists (of_list (map snd P)). split; [|apply mem_of_list; auto]. unfold ext_ls. rewrite nth_error_app2, Nat.sub_diag by auto. auto. Qed.
Lemma lay_inv i n : in_layer ext_ls i n -> (in_layer ls i n /\ (i < length ls)%nat) \/ (i = length ls /\ In n (map snd P)).
Proof.
  intros (l & A & B). unfold ext_ls in A. destruct (Nat.lt_ge_cases i (length ls)) as [H|H].
  - rewrite nth_error_app1 in A by auto. left. split; auto. exists l. auto.
  - rewrite nth_error_app2 in A by auto. right. destruct (i - length ls)%nat as [|d] eqn:D; [|destruct d; discriminate]. injection A as <-. split; [lia|]. apply mem_of_list; auto.
Qed.
Lemma prec_old u v : prec ls u v -> prec ext_ls u v.
Proof. intros (i & j & A & B & C). exists i, j. auto using lay_old. Qed.
Lemma prec_new k v : In k (map snd P) -> In v L -> prec ext_ls k v.
Proof.
  intros H Hv. destruct (proj1 (ord_cover _ _ (pfl_order _ _ _ PF) v) Hv) as (j & Hj). exists (length ls), j. split; [apply lay_new; auto|]. split; [apply lay_old; auto|].
  destruct Hj as (l & A & _). apply nth_error_Some. congruence.
Qed.
Lemma prec_ext_inv u v : In u L -> In v L -> prec ext_ls u v -> prec ls u v.
Proof.
  intros Hu Hv (i & j & A & B & C). exists i, j. destruct (lay_inv _ _ A) as [[A1 _]|[_ A1]]; [|exfalso; apply (PN _ A1); auto]. destruct (lay_inv _ _ B) as [[B1 _]|[_ B1]]; [|exfalso; apply (PN _ B1); auto]. auto.
Qed.
Lemma old_of n m : dget (og_meas og) n = Some m -> In n L.
Proof. intros E. apply dget_is_key in E. apply (ok_meas _ OK) in E. tauto. Qed.
Lemma sx_sing i n : sx (sing i) n = (n =? i)%nat.
Proof. unfold sx. rewrite mem_sing. auto. Qed.
Lemma odd_old S n : (forall k, mem k S = true -> In k L) -> In n L -> odd_nb (og_graph og') S n <-> odd_nb (og_graph og) S n.
Proof. intros HS Hn. rewrite <- !sz_odd by auto using ext_ok, ext_simple. rewrite sz_old by auto. tauto. Qed.
Lemma odd_new S i k : In (i, k) P -> odd_nb (og_graph og') S k <-> mem i S = true.
Proof. intros H. rewrite <- sz_odd by auto using ext_ok, ext_simple. rewrite (sz_new S i k H). tauto. Qed.
Lemma in_dec_new n : In n (map snd P) \/ ~ In n (map snd P).
Proof. destruct (in_dec Nat.eq_dec n (map snd P)); auto. Qed.
Lemma label_in k l : labelled og k l -> In k L.
Proof. intros (m & E & _). eapply old_of; eauto. Qed.
Lemma label_old' k l : labelled og' k l -> (In k (map snd P) /\ l = LAxis AX) \/ (In k L /\ ~ In k (map snd P) /\ labelled og k l).
Proof.
  intros H. destruct (in_dec_new k) as [K|K]; [left; split; auto; apply (label_new k); auto|]. right. apply label_old in H; auto. split; [eapply label_in; eauto|]. auto.
Qed.
Lemma cf_cases v s : dget ext_cf v = Some s -> (exists i, In (i, v) P /\ s = sing i) \/ (~ In v (map snd P) /\ dget cf v = Some s /\ (In v L /\ forall n, mem n s = true -> In n L /\ ~ In n (og_in og))).
Proof.
  intros H. destruct (in_dec_new v) as [K|K].
  - left. destruct (snd_pair v K) as (i & Hi). exists i. split; auto. rewrite (ext_get_new i v Hi) in H. congruence.
  - right. rewrite ext_get_old in H by auto. split; auto. split; auto. split; [apply (cf_dom _ _ (pfl_cf _ _ _ PF)); eauto|]. intros n Hn. apply (cf_img _ _ (pfl_cf _ _ _ PF) v s n H Hn).
Qed.
Lemma ext_flow : pauli_flow og' ext_cf ext_ls.
Proof.
  pose proof (pfl_order _ _ _ PF) as OR. pose proof (pfl_cf _ _ _ PF) as CF. constructor.
  - constructor.
    + intros n. rewrite EN, in_app_iff. split.
      * intros [H|H]; [|exists (length ls); apply lay_new; auto]. apply (ord_cover _ _ OR) in H. destruct H as (i & H). exists i. apply lay_old; auto.
      * intros (i & H). destruct (lay_inv i n H) as [[K _]|[_ K]]; auto. left. apply (ord_cover _ _ OR). eauto.
    + intros i j n A B. destruct (lay_inv i n A) as [[K LT]|[-> K]], (lay_inv j n B) as [[K' LT']|[-> K']]; auto.
      * eapply (ord_disj _ _ OR); eauto.
      * exfalso. apply (PN n K'). apply (ord_cover _ _ OR). eauto.
      * exfalso. apply (PN n K). apply (ord_cover _ _ OR). eauto.
    + intros i l A. unfold ext_ls in A. destruct (Nat.lt_ge_cases i (length ls)) as [H|H].
      * rewrite nth_error_app1 in A by auto. eapply (ord_ne _ _ OR); eauto.
      * rewrite nth_error_app2 in A by auto. destruct (i - length ls)%nat as [|d]; [|destruct d; discriminate]. injection A as <-. destruct P as [|[a b] P'] eqn:EP; [congruence|]. exists b. apply mem_of_list. left. auto.
    + rewrite EO. intros N n. rewrite (ord_first _ _ OR N n). split; [apply lay_old|]. intros A. destruct (lay_inv 0 n A) as [[K _]|[K _]]; auto. destruct ls; [congruence|discriminate].
  - constructor.
    + intros v. rewrite EN, in_app_iff, EO. destruct (in_dec_new v) as [K|K].
      * destruct (snd_pair v K) as (i & Hi). rewrite (ext_get_new i v Hi). split; [|eauto]. intros _. split; auto. intros X. apply (PN v K). apply (ok_out _ OK); auto.
      * rewrite ext_get_old by auto. rewrite (cf_dom _ _ CF v). tauto.
    + intros v s j E Hj. rewrite EN, in_app_iff. destruct (cf_cases v s E) as [(i & Hi & ->)|(K & E' & Hv & H)].
      * rewrite mem_sing in Hj. apply Nat.eqb_eq in Hj. subst j. destruct (P_old i v Hi) as [A B]. split; auto. intros X. apply EI in X. apply (PN i X). auto.
      * destruct (H j Hj) as [A B]. split; auto. intros X. apply EI in X. apply (PN j X). auto.
  - intros v s j l E Hj N LB L1 L2. destruct (label_old' j l LB) as [[_ ->]|(Oj & Nj & LB')]; [congruence|]. destruct (cf_cases v s E) as [(i & Hi & ->)|(K & E' & Hv & H)].
    + apply prec_new; auto. apply (P_new i v Hi).
    + apply prec_old. apply (pfl_1 _ _ _ PF v s j l); auto.
  - intros v s j l E Hj N LB L1 L2. destruct (label_old' j l LB) as [[Kj ->]|(Oj & Nj & LB')].
    + destruct (snd_pair j Kj) as (ij & Hij). apply (odd_new s ij j Hij) in Hj. destruct (cf_cases v s E) as [(i & Hi & ->)|(K & E' & Hv & H)].
      * rewrite mem_sing in Hj. apply Nat.eqb_eq in Hj. subst ij. exfalso. apply N. 
        assert (FI : forall (A B : nat) (l : list (nat * nat)), NoDup (map fst l) -> forall a, In (a, A) l -> In (a, B) l -> A = B).
        { clear. intros A B l. induction l as [|[a b] l IH]; intros ND c HA HB; [destruct HA|]. cbn [map fst] in ND. inversion ND as [|? ? N1 N2]; subst. destruct HA as [HA|HA], HB as [HB|HB].
          - congruence.
          - injection HA as -> ->. exfalso. apply N1, in_map_iff. exists (c, B). auto.
          - injection HB as -> ->. exfalso. apply N1, in_map_iff. exists (c, A). auto.
          - eapply IH; eauto. }
        apply (FI v j P NI1 i); auto.
      * destruct (H ij Hj) as [_ X]. exfalso. apply X. apply (P_old ij j Hij).
    + destruct (cf_cases v s E) as [(i & Hi & ->)|(K & E' & Hv & H)].
      * apply prec_new; auto. apply (P_new i v Hi).
      * apply prec_old. apply (pfl_2 _ _ _ PF v s j l); auto. apply odd_old; auto. intros k Hk. apply (H k Hk).
  - intros v s j E NP N LB. destruct (label_old' j _ LB) as [[_ X]|(Oj & Nj & LB')]; [congruence|]. destruct (cf_cases v s E) as [(i & Hi & ->)|(K & E' & Hv & H)].
    + exfalso. apply NP. apply prec_new; auto. apply (P_new i v Hi).
    + rewrite odd_old by (auto; intros k Hk; apply (H k Hk)). apply (pfl_3 _ _ _ PF v s j); auto. intros X. apply NP, prec_old; auto.
  - intros v s E LB. destruct (label_old' v _ LB) as [[_ X]|(Ov & Nv & LB')]; [congruence|]. destruct (cf_cases v s E) as [(i & Hi & _)|(K & E' & Hv & H)]; [exfalso; apply Nv; apply (P_new i v Hi)|].
    rewrite odd_old by (auto; intros k Hk; apply (H k Hk)). apply (pfl_4 _ _ _ PF v s); auto.
  - intros v s E LB. destruct (label_old' v _ LB) as [[_ X]|(Ov & Nv & LB')]; [congruence|]. destruct (cf_cases v s E) as [(i & Hi & _)|(K & E' & Hv & H)]; [exfalso; apply Nv; apply (P_new i v Hi)|].
    rewrite odd_old by (auto; intros k Hk; apply (H k Hk)). apply (pfl_5 _ _ _ PF v s); auto.
  - intros v s E LB. destruct (label_old' v _ LB) as [[_ X]|(Ov & Nv & LB')]; [congruence|]. destruct (cf_cases v s E) as [(i & Hi & _)|(K & E' & Hv & H)]; [exfalso; apply Nv; apply (P_new i v Hi)|].
    rewrite odd_old by (auto; intros k Hk; apply (H k Hk)). apply (pfl_6 _ _ _ PF v s); auto.
  - intros v s E LB. destruct (cf_cases v s E) as [(i & Hi & ->)|(K & E' & Hv & H)].
    + apply (odd_new _ i v Hi). rewrite mem_sing. apply Nat.eqb_refl.
    + rewrite odd_old by (auto; intros k Hk; apply (H k Hk)). apply label_old in LB; auto. apply (pfl_7 _ _ _ PF v s); auto.
  - intros v s E LB. destruct (label_old' v _ LB) as [[_ X]|(Ov & Nv & LB')]; [congruence|]. destruct (cf_cases v s E) as [(i & Hi & _)|(K & E' & Hv & H)]; [exfalso; apply Nv; apply (P_new i v Hi)|].
    apply (pfl_8 _ _ _ PF v s); auto.
  - intros v s E LB. destruct (label_old' v _ LB) as [[_ X]|(Ov & Nv & LB')]; [congruence|]. destruct (cf_cases v s E) as [(i & Hi & _)|(K & E' & Hv & H)]; [exfalso; apply Nv; apply (P_new i v Hi)|].
    rewrite odd_old by (auto; intros k Hk; apply (H k Hk)). apply (pfl_9 _ _ _ PF v s); auto.
Qed.
(** the sets of any focused flow of the extended graph *)
Lemma ext_sets cf2 ls2 i k S : pauli_flow og' cf2 ls2 -> focused og' cf2 -> In (i, k) P -> dget cf2 k = Some S ->
  (forall n, mem n S = true -> In n L /\ (n = i \/ ~ In n (og_in og))) /\ mem i S = true /\
  (forall n, In n (dkeys (og_meas og)) -> fits (measf og n) (sx S n) (sz og S n) = true) /\
  (forall n, In n L -> sz og' S n = sz og S n) /\ str_sign og' k S = xorb (esign og S) (msum og S).
Proof.
  intros PF2 FO2 HP ES. destruct (P_new i k HP) as [K1 K2].
  assert (SN : forall n, mem n S = true -> In n L).
  { intros n Hn. destruct (cf_img _ _ (pfl_cf _ _ _ PF2) k S n ES Hn) as [A B]. rewrite EN, in_app_iff in A. destruct A as [A|A]; auto. exfalso. apply B, EI. auto. }
  assert (MI : mem i S = true). { apply (odd_new S i k HP). apply (pfl_7 _ _ _ PF2 k S ES). apply label_new; auto. }
  split; [|split; [|split; [|split]]]; auto.
  - intros n Hn. split; auto. destruct (Nat.eq_dec n i) as [|N]; auto. right. intros In1. apply PI in In1. apply in_map_iff in In1. destruct In1 as ([n' k'] & En & HP'). cbn [fst] in En. subst n'.
    assert (NK : k <> k').
    { intros <-. apply N. clear - NI2 HP HP'. induction P as [|[a b] l IH]; [destruct HP|]. cbn [map snd] in NI2. inversion NI2 as [|? ? N1 N2]; subst. destruct HP as [HA|HA], HP' as [HB|HB].
      - congruence.
      - injection HA as -> ->. exfalso. apply N1, in_map_iff. exists (n, k). auto.
      - injection HB as -> ->. exfalso. apply N1, in_map_iff. exists (i, k). auto.
      - auto. }
    assert (LB : labelled og' k' (LAxis AX)) by (apply label_new; auto; apply (P_new n k' HP')).
    destruct (fo_2 _ _ FO2 k S k' (LAxis AX) ES NK LB) as [X|[X|[X|X]]]; try discriminate. apply (odd_new S n k' HP'). auto.
  - intros n Hn. destruct (proj1 (key_get _ _) Hn) as (m & Em). assert (On : In n L) by (eapply old_of; eauto). assert (NN : ~ In n (map snd P)) by (intros X; apply (PN n X); auto).
    rewrite <- (sz_old S n SN On). replace (measf og n) with m by (unfold measf; rewrite Em; auto). apply (focused_fit og' cf2 k S ext_ok ext_simple FO2 ES n m).
    + intros ->. auto.
    + rewrite (proj2 EM). rewrite (proj1 (not_true_iff_false (lmem n (map snd P)))) by (rewrite lmem_In; auto). auto.
  - intros n Hn. apply sz_old; auto.
  - assert (NX : forall n, In n (map snd P) -> sx S n = false). { intros n Hn. apply not_true_iff_false. intros X. apply (PN n Hn), SN, X. }
    rewrite str_sign_eq. assert (Y0 : yz_at og' k = false). { unfold yz_at. rewrite (proj2 EM), (proj2 (lmem_In k _) K1). auto. }
    rewrite Y0, xorb_false_r. f_equal.
    + unfold esign. f_equal.
      * rewrite EE. unfold Qf. rewrite gx_app. rewrite (gx_zero _ P), xorb_false_r; auto. intros [a b] Hab. unfold eb. cbn [fst snd]. rewrite (NX b) by apply (P_new a b Hab). apply andb_false_r.
      * f_equal. f_equal. unfold ycount. rewrite EN, filter_app, app_length. 
        replace (length (filter (fun n => sx S n && sz og' S n) (map snd P))) with 0%nat.
        -- rewrite Nat.add_0_r. f_equal. apply filter_ext_in. intros n Hn. rewrite sz_old; auto.
        -- symmetry. replace (filter (fun n => sx S n && sz og' S n) (map snd P)) with (@nil nat); auto. symmetry. apply (Forall_filter_nil (fun n => sx S n && sz og' S n)). intros n Hn. rewrite NX by auto. auto.
    + unfold msum. rewrite EN, gx_app, (gx_zero _ (map snd P)), xorb_false_r.
      * apply gx_ext. intros n Hn. rewrite sz_old by auto. f_equal. unfold minus_at. rewrite (proj2 EM). rewrite (proj1 (not_true_iff_false (lmem n (map snd P)))); auto. rewrite lmem_In. intros X. apply (PN n X); auto.
      * intros n Hn. unfold minus_at. rewrite (proj2 EM), (proj2 (lmem_In n _) Hn). apply andb_false_r.
Qed.
End Ext.

(** * extend_input *)
Lemma extend_fold l : NoDup l -> forall g anc news fresh, (forall i, In i l -> ~ In i (dkeys anc)) ->
  fold_left extend_step l (g, anc, news, fresh) =
  (Graph (g_nodes g ++ seq fresh (length l)) (g_edges g ++ combine l (seq fresh (length l))), anc ++ combine l (seq fresh (length l)), news ++ seq fresh (length l), (fresh + length l)%nat).
Proof.
  induction l as [|i l IH]; intros ND g anc news fresh H.
  - cbn [fold_left length seq combine]. rewrite !app_nil_r, Nat.add_0_r. destruct g; auto.
  - inversion ND as [|? ? N1 N2]; subst. cbn [fold_left extend_step]. rewrite IH; auto.
    + cbn [g_nodes g_edges length seq combine]. rewrite Transpile.dset_new by (apply H; left; auto). rewrite <- !app_assoc. cbn [app]. rewrite Nat.add_succ_comm. auto.
    + intros j Hj K. apply dkeys_dset in K. destruct K as [->|K]; [auto|]. apply (H j); auto. right; auto.
Qed.
Lemma ms_fold news (m : measurement) d : NoDup (dkeys d) -> NoDup (dkeys (fold_left (fun d n => dset d n m) news d)) /\
  forall n, dget (fold_left (fun d n => dset d n m) news d) n = if lmem n news then Some m else dget d n.
Proof.
  revert d. induction news as [|k news IH]; intros d ND; [auto|]. cbn [fold_left]. destruct (IH (dset d k m)) as [A B]; [apply dset_NoDup; auto|]. split; auto. intros n. rewrite B, dget_dset.
  unfold lmem. cbn [existsb]. fold (lmem n news). rewrite (Nat.eqb_sym k n). destruct (lmem n news), (n =? k)%nat; auto.
Qed.
Lemma combine_fst {A B} (l : list A) (l' : list B) : length l = length l' -> map fst (combine l l') = l.
Proof. revert l'. induction l as [|a l IH]; intros [|b l'] H; try discriminate; auto. cbn. f_equal. apply IH. cbn in H. lia. Qed.
Lemma combine_snd {A B} (l : list A) (l' : list B) : length l = length l' -> map snd (combine l l') = l'.
Proof. revert l'. induction l as [|a l IH]; intros [|b l'] H; try discriminate; auto. cbn. f_equal. apply IH. cbn in H. lia. Qed.
Record extends (og og' : opengraph) (P : list (nat * nat)) : Prop := {
  ex_1 : NoDup (map fst P); ex_2 : NoDup (map snd P); ex_in : forall i, In i (map fst P) <-> In i (og_in og);
  ex_new : forall k, In k (map snd P) -> ~ In k (g_nodes (og_graph og)); ex_lt : forall i k, In (i, k) P -> (i < k)%nat;
  ex_nodes : g_nodes (og_graph og') = g_nodes (og_graph og) ++ map snd P; ex_edges : g_edges (og_graph og') = g_edges (og_graph og) ++ P;
  ex_ins : NoDup (og_in og') /\ forall k, In k (og_in og') <-> In k (map snd P); ex_out : og_out og' = og_out og;
  ex_meas : NoDup (dkeys (og_meas og')) /\ forall n, dget (og_meas og') n = if lmem n (map snd P) then Some (MPauli AX Plus) else dget (og_meas og) n;
  ex_cliff : og_cliff og' = og_cliff og }.
Lemma extend_input_spec og : og_ok og -> simple (og_graph og) -> g_nodes (og_graph og) <> [] -> exists og' P, extend_input og = Ok (og', P) /\ extends og og' P.
Proof.
  intros OK SI NE. unfold extend_input. destruct (g_nodes (og_graph og)) as [|n0 l0] eqn:EL; [congruence|]. rewrite <- EL in *. set (fresh := S (list_max (g_nodes (og_graph og)))).
  assert (NR : NoDup (rev (og_in og))) by (apply NoDup_rev, OK). rewrite (extend_fold _ NR) by (intros i _ []). cbn [app]. rewrite rev_length. set (news := seq fresh (length (og_in og))). set (P := combine (rev (og_in og)) news).
  assert (LN : length (rev (og_in og)) = length news) by (unfold news; rewrite rev_length, seq_length; auto).
  assert (PF1 : map fst P = rev (og_in og)) by (apply combine_fst; auto). assert (PS : map snd P = news) by (apply combine_snd; auto).
  assert (MX : forall n, In n (g_nodes (og_graph og)) -> (n < fresh)%nat). { intros n Hn. pose proof (proj1 (list_max_le (g_nodes (og_graph og)) _) (le_n _)) as F. rewrite Forall_forall in F. specialize (F n Hn). unfold fresh. lia. }
  destruct (ms_fold news (MPauli AX Plus) (og_meas og) (proj1 (ok_meas _ OK))) as [MN MG].
  set (og' := OG (Graph (g_nodes (og_graph og) ++ news) (g_edges (og_graph og) ++ P)) (rev news) (og_out og) (fold_left (fun d n => dset d n (MPauli AX Plus)) news (og_meas og)) (og_cliff og)).
  assert (X : extends og og' P).
  { constructor; cbn [og' og_graph g_nodes g_edges og_in og_out og_meas og_cliff]; auto.
    - rewrite PF1. auto.
    - rewrite PS. apply seq_NoDup.
    - intros i. rewrite PF1, <- in_rev. tauto.
    - intros k. rewrite PS. intros H K. apply in_seq in H. apply MX in K. lia.
    - intros i k H. assert (A : In i (og_in og)) by (apply in_rev; apply in_combine_l in H; auto). apply in_combine_r in H. apply in_seq in H. apply (ok_in _ OK) in A. apply MX in A. lia.
    - rewrite PS. auto.
    - rewrite PS. split; [apply NoDup_rev, seq_NoDup|]. intros k. rewrite <- in_rev. tauto.
    - rewrite PS. split; auto. }
  exists og', P. split; auto. assert (OK' : og_ok og') by (destruct X; eapply (ext_ok og og' P); eauto).
  destruct (og_make_spec (Graph (g_nodes (og_graph og) ++ news) (g_edges (og_graph og) ++ P)) (rev news) (og_out og) (fold_left (fun d n => dset d n (MPauli AX Plus)) news (og_meas og)) (og_cliff og)) as [[_ E]|[N _]]; auto.
  - apply (ok_graph _ OK').
  - apply OK.
  - rewrite E. cbn [rbind]. auto.
  - exfalso. apply N. exact OK'.
Qed.
(** * The images of X on the inputs *)
Lemma rmap_pair {B} (f : nat -> res B) l : (forall a, In a l -> exists b, f a = Ok b) -> NoDup l ->
  exists d, rmap (fun n => do s <- f n; Ok (n, s)) l = Ok d /\ forall a, In a l -> exists b, f a = Ok b /\ dget d a = Some b.
Proof.
  induction l as [|a l IH]; intros H ND; [exists []; split; [auto|intros a []]|]. inversion ND as [|? ? N1 N2]; subst. destruct (H a (or_introl eq_refl)) as (b & E). destruct IH as (d & Ed & Hd); auto.
  { intros; apply H; right; auto. }
  exists ((a, b) :: d). cbn [rmap]. rewrite E. cbn [rbind]. rewrite Ed. cbn [rbind]. split; auto. intros k Hk. cbn [dget]. destruct (Nat.eqb_spec a k) as [->|N]; [eauto|]. apply Hd. destruct Hk; [congruence|auto].
Qed.
Lemma x_map_spec it f : let og := pf_og f in iter_ok it -> og_ok og -> simple (og_graph og) -> pauli_flow og (pf_cf f) (pf_layers f) -> og_in og <> [] ->
  exists xs, x_map_from_flow it f = Ok xs /\ Forall2 (fun i p => exists S,
    (forall n, mem n S = true -> In n (g_nodes (og_graph og)) /\ (n = i \/ ~ In n (og_in og))) /\ mem i S = true /\
    (forall n, In n (dkeys (og_meas og)) -> fits (measf og n) (sx S n) (sz og S n) = true) /\
    ps_ok p /\ ps_dim p = length (og_out og) /\ (forall q n, nth_error (og_out og) q = Some n -> ps_x p q = sx S n /\ ps_z p q = sz og S n) /\
    ps_s p = xorb (esign og S) (msum og S)) (og_in og) xs.
Proof.
  intros og Hit OK SI PF NE. assert (NL : g_nodes (og_graph og) <> []). { destruct (og_in og) as [|i l] eqn:E; [congruence|]. intros K. pose proof (proj2 (ok_in _ OK) i) as H. rewrite E, K in H. apply H. left; auto. }
  assert (LNE : pf_layers f <> []). { destruct (g_nodes (og_graph og)) as [|n l] eqn:E; [congruence|]. intros K. destruct (proj1 (ord_cover _ _ (pfl_order _ _ _ PF) n)) as (i & s & A & _); [fold og; rewrite E; left; auto|]. rewrite K in A. destruct i; discriminate. }
  destruct (extend_input_spec og OK SI NL) as (og' & P & EX & X). destruct X.
  assert (PNE : P <> []). { intros ->. destruct (og_in og) as [|i l] eqn:E; [congruence|]. destruct (proj2 (ex_in0 i)). left; auto. }
  assert (OK' : og_ok og') by (eapply (ext_ok og og' P); eauto). assert (SI' : simple (og_graph og')) by (eapply (ext_simple og og' P); eauto).
  assert (PF' : pauli_flow og' (ext_cf P (pf_cf f)) (ext_ls P (pf_layers f))) by (eapply (ext_flow og og' P); eauto).
  unfold x_map_from_flow. fold og. rewrite EX. cbn [rbind]. unfold to_pauliflow. destruct (find_pauliflow_correct it og' Hit OK' SI') as [(f' & E' & EO' & _ & PF2 & FO2 & _)|[_ N]]; [|exfalso; eapply N; eauto].
  rewrite E'. cbn [rbind].
  assert (GET : forall i k, In (i, k) P -> exists S p, dget (pf_cf f') k = Some S /\ extraction_ps it f' k = Ok p /\ ps_ok p /\ ps_dim p = length (og_out og) /\
    (forall q n, nth_error (og_out og) q = Some n -> ps_x p q = sx S n /\ ps_z p q = sz og' S n) /\ ps_s p = str_sign og' k S).
  { intros i k HP. destruct (P_new og P ex_new0 i k HP) as [K1 K2]. destruct (proj2 (cf_dom _ _ (pfl_cf _ _ _ PF2) k)) as (S & ES).
    { rewrite ex_nodes0, in_app_iff, ex_out0. split; [right; auto|]. intros K. apply K2. apply (ok_out _ OK); auto. }
    exists S. pose proof (extraction_ps_spec it f' k S) as SP. cbn zeta in SP. rewrite EO' in SP. rewrite ex_out0 in SP. destruct SP as (p & E & A & B & C & D); auto.
    - intros n Hn. apply (cf_img _ _ (pfl_cf _ _ _ PF2) k S n ES Hn).
    - apply key_get. rewrite (proj2 ex_meas0), (proj2 (lmem_In k _) K1). eauto.
    - exists p. auto 10. }
  destruct (rmap_pair (extraction_ps it f') (og_in og')) as (d & Ed & Hd).
  { intros k Hk. apply ex_ins0 in Hk. destruct (snd_pair P k Hk) as (i & Hi). destruct (GET i k Hi) as (S & p & _ & E & _). eauto. }
  { apply ex_ins0. }
  rewrite Ed. cbn [rbind].
  assert (GP : forall i, In i (og_in og) -> exists k, In (i, k) P /\ dget P i = Some k).
  { intros i Hi. apply ex_in0 in Hi. apply in_map_iff in Hi. destruct Hi as ([i' k] & <- & Hi). exists k. split; auto. apply In_dget; auto. }
  destruct (rmap_ok (fun i => do a <- of_opt EKey (dget P i); of_opt EKey (dget d a)) (og_in og)) as (xs & Ex & F).
  { intros i Hi. destruct (GP i Hi) as (k & HP & ->). cbn [of_opt rbind]. destruct (Hd k) as (b & _ & ->); [apply ex_ins0; apply (P_new og P ex_new0 i k HP)|]. cbn. eauto. }
  exists xs. split; [exact Ex|]. assert (G : forall l bs, (forall i, In i l -> In i (og_in og)) -> Forall2 (fun i p => (do a <- of_opt EKey (dget P i); of_opt EKey (dget d a)) = Ok p) l bs -> Forall2 (fun i p => exists S,
    (forall n, mem n S = true -> In n (g_nodes (og_graph og)) /\ (n = i \/ ~ In n (og_in og))) /\ mem i S = true /\
    (forall n, In n (dkeys (og_meas og)) -> fits (measf og n) (sx S n) (sz og S n) = true) /\
    ps_ok p /\ ps_dim p = length (og_out og) /\ (forall q n, nth_error (og_out og) q = Some n -> ps_x p q = sx S n /\ ps_z p q = sz og S n) /\
    ps_s p = xorb (esign og S) (msum og S)) l bs); [|apply G; auto].
  intros l bs HI F2. induction F2 as [|i p l bs Hp F2 IH]; constructor; [|apply IH; intros; apply HI; right; auto].
  destruct (GP i) as (k & HP & EP); [apply HI; left; auto|]. rewrite EP in Hp. cbn [of_opt rbind] in Hp. destruct (Hd k) as (b & Eb & Edb); [apply ex_ins0; apply (P_new og P ex_new0 i k HP)|]. rewrite Edb in Hp. cbn in Hp. injection Hp as <-.
  destruct (GET i k HP) as (S & p & ES & Ep & A & B & C & D). assert (p = b) by congruence. subst b. exists S.
  destruct (ext_sets og og' P OK SI ex_3 ex_4 ex_in0 ex_new0 ex_lt0 ex_nodes0 ex_edges0 ex_ins0 ex_out0 ex_meas0 ex_cliff0 (pf_cf f') (pf_layers f') i k S PF2 FO2 HP ES) as (X1 & X2 & X3 & X4 & X5).
  split; [auto|]. split; [auto|]. split; [auto|]. split; [auto|]. split; [auto|]. split; [|congruence].
  intros q n Hq. destruct (C q n Hq) as [Y1 Y2]. split; auto. rewrite Y2. apply X4. apply (ok_out _ OK). eapply nth_error_In; eauto.
Qed.
