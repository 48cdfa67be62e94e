(** Model of graphix/noise_models/ (noise_model.py, depolarising.py,
    amplitude_damping.py): noise models as transpilers of command sequences. *)
From Coq Require Import Reals Lra Arith List Bool Lia Permutation.
From Verif Require Import Cplx NSet Measure Pattern.
Import ListNotations.

(** depolarising.py:25-49 DepolarisingNoise, TwoQubitDepolarisingNoise;
    amplitude_damping.py:29-53 AmplitudeDampingNoise,
    TwoQubitAmplitudeDampingNoise.  User-defined [Noise] classes: [NUser], a
    label and a number of qubits. *)
Inductive noise := Dep1 (p : R) | Dep2 (p : R) | Damp1 (p : R) | Damp2 (p : R) | NUser (label nq : nat).
(** Noise.nqubits *)
Definition noise_nqubits (a : noise) : nat :=
  match a with Dep1 _ | Damp1 _ => 1 | Dep2 _ | Damp2 _ => 2 | NUser _ k => k end.
(** noise_model.py:44-69 ApplyNoise(noise, nodes, domain=None) *)
Record anoise := AN { an_noise : noise; an_nodes : list nat; an_dom : option nset }.
(** noise_model.py:72-73 CommandOrNoise *)
Inductive ncmd := NC (c : cmd) | NA (a : anoise).

(** the six parameters of both noise models: depolarising.py:87-101,
    amplitude_damping.py:90-104 *)
Record nprobs := NP { np_prepare : R; np_x : R; np_z : R; np_ent : R; np_mchan : R; np_merr : R }.
(** the built-in noise models; ComposeNoiseModel nests *)
Inductive nmodel :=
| NMless
| NMDep (p : nprobs)
| NMDamp (p : nprobs)
| NMComp (l : list nmodel).

(** depolarising.py:109-139 DepolarisingNoiseModel.command *)
Definition dep_command (p : nprobs) (c : ncmd) : res (list ncmd) :=
  match c with
  | NC (CN n _) => Ok [c; NA (AN (Dep1 (np_prepare p)) [n] None)]
  | NC (CE u v) => Ok [c; NA (AN (Dep2 (np_ent p)) [u; v] None)]
  | NC (CM n _ _ _) => Ok [NA (AN (Dep1 (np_mchan p)) [n] None); c]
  | NC (CX n d) => Ok [c; NA (AN (Dep1 (np_x p)) [n] (Some d))]
  | NC (CZ n d) => Ok [c; NA (AN (Dep1 (np_z p)) [n] (Some d))]
  | NC (CC _ _) | NC CT | NA _ => Ok [c]
  | NC (CS _ _) => Err EValue
  end.
(** amplitude_damping.py:113-145 AmplitudeDampingNoiseModel.command *)
Definition damp_command (p : nprobs) (c : ncmd) : res (list ncmd) :=
  match c with
  | NC (CN n _) => Ok [c; NA (AN (Damp1 (np_prepare p)) [n] None)]
  | NC (CE u v) => Ok [c; NA (AN (Damp2 (np_ent p)) [u; v] None)]
  | NC (CM n _ _ _) => Ok [NA (AN (Damp1 (np_mchan p)) [n] None); c]
  | NC (CX n d) => Ok [c; NA (AN (Damp1 (np_x p)) [n] (Some d))]
  | NC (CZ n d) => Ok [c; NA (AN (Damp1 (np_z p)) [n] (Some d))]
  | NC (CC _ _) | NC CT | NA _ => Ok [c]
  | NC (CS _ _) => Err EValue
  end.
(** noise_model.py:111-115 NoiseModel.transpile: the concatenation of the
    results of [command]; the first exception is propagated *)
Fixpoint transp (command : ncmd -> res (list ncmd)) (l : list ncmd) : res (list ncmd) :=
  match l with
  | [] => Ok []
  | c :: l' => do a <- command c; do b <- transp command l'; Ok (a ++ b)
  end.
(** noise_model.py:127-132 (Noiseless), 160-169 (Compose): command *)
Fixpoint nm_command (m : nmodel) (c : ncmd) : res (list ncmd) :=
  match m with
  | NMless => Ok [c]
  | NMDep p => dep_command p c
  | NMDamp p => damp_command p c
  | NMComp ms =>
      (fix go (ms : list nmodel) (sequence : list ncmd) : res (list ncmd) :=
         match ms with
         | [] => Ok sequence
         | m' :: ms' => do s <- transp (nm_command m') sequence; go ms' s
         end) ms [c]
  end.
Definition nm_transpile (m : nmodel) (l : list ncmd) : res (list ncmd) := transp (nm_command m) l.
(** input_nodes: noise_model.py:120-125, 152-157, depolarising.py:103-108,
    amplitude_damping.py:106-111 *)
Fixpoint nm_input (m : nmodel) (nodes : list nat) : list ncmd :=
  match m with
  | NMless => []
  | NMDep p => map (fun n => NA (AN (Dep1 (np_prepare p)) [n] None)) nodes
  | NMDamp p => map (fun n => NA (AN (Damp1 (np_prepare p)) [n] None)) nodes
  | NMComp ms => flat_map (fun m' => nm_input m' nodes) ms
  end.
(** confuse_result: noise_model.py:134-139, 165-172, depolarising.py:141-149,
    amplitude_damping.py:147-155.  [u] is the stream of values of
    rng.uniform(), [k] the number of values already drawn. *)
Definition conf1 (u : nat -> R) (p : R) (rk : bool * nat) : bool * nat :=
  (if Rlt_dec (u (snd rk)) p then negb (fst rk) else fst rk, S (snd rk)).
Fixpoint nm_confuse (u : nat -> R) (m : nmodel) (rk : bool * nat) : bool * nat :=
  match m with
  | NMless => rk
  | NMDep p | NMDamp p => conf1 u (np_merr p) rk
  | NMComp ms => fold_left (fun rk m' => nm_confuse u m' rk) ms rk
  end.
(** simulator.py:437-441: the sequence that PatternSimulator.run executes under
    a noise model ([given]: an input state is given to run) *)
Definition noisy_seq (m : nmodel) (p : pattern) (given : bool) : res (list ncmd) :=
  do s <- nm_transpile m (map NC (p_seq p));
  Ok ((if given then nm_input m (p_in p) else []) ++ s).

(** * Specification *)
(** [out] is [l] with noise commands inserted *)
Inductive inserts : list ncmd -> list ncmd -> Prop :=
| ins_nil : inserts [] []
| ins_keep c l out : inserts l out -> inserts (c :: l) (c :: out)
| ins_noise a l out : inserts l out -> inserts l (NA a :: out).
(** the commands of a sequence, without the noise *)
Definition strip (l : list ncmd) : list cmd := flat_map (fun c => match c with NC c => [c] | NA _ => [] end) l.
(** the non-composed components of a model, in order, with [true] for
    depolarising and [false] for amplitude damping *)
Fixpoint leaves (m : nmodel) : list (bool * nprobs) :=
  match m with
  | NMless => []
  | NMDep p => [(true, p)]
  | NMDamp p => [(false, p)]
  | NMComp ms => flat_map leaves ms
  end.
(** one- and two-qubit noise of a component *)
Definition one (lf : bool * nprobs) (pr : nprobs -> R) : noise := if fst lf then Dep1 (pr (snd lf)) else Damp1 (pr (snd lf)).
Definition two (lf : bool * nprobs) (pr : nprobs -> R) : noise := if fst lf then Dep2 (pr (snd lf)) else Damp2 (pr (snd lf)).
(** the noise a component puts just before / just after a command *)
Definition before (lf : bool * nprobs) (c : ncmd) : list ncmd :=
  match c with NC (CM n _ _ _) => [NA (AN (one lf np_mchan) [n] None)] | _ => [] end.
Definition after (lf : bool * nprobs) (c : ncmd) : list ncmd :=
  match c with
  | NC (CN n _) => [NA (AN (one lf np_prepare) [n] None)]
  | NC (CE u v) => [NA (AN (two lf np_ent) [u; v] None)]
  | NC (CX n d) => [NA (AN (one lf np_x) [n] (Some d))]
  | NC (CZ n d) => [NA (AN (one lf np_z) [n] (Some d))]
  | _ => []
  end.
Definition has_S (l : list ncmd) : bool := existsb (fun c => match c with NC (CS _ _) => true | _ => false end) l.
Definition isNA (c : ncmd) : bool := match c with NA _ => true | _ => false end.

(** * Proofs *)
Fixpoint nmodel_ind' (P : nmodel -> Prop) (H1 : P NMless) (H2 : forall p, P (NMDep p)) (H3 : forall p, P (NMDamp p))
  (H4 : forall l, Forall P l -> P (NMComp l)) (m : nmodel) : P m :=
  match m with
  | NMless => H1 | NMDep p => H2 p | NMDamp p => H3 p
  | NMComp l => H4 l ((fix go l : Forall P l := match l with [] => Forall_nil P | m' :: l' => Forall_cons m' (nmodel_ind' P H1 H2 H3 H4 m') (go l') end) l)
  end.
(** the noise around one command under a list of components *)
Definition around (ls : list (bool * nprobs)) (c : ncmd) : list ncmd :=
  flat_map (fun lf => before lf c) ls ++ c :: flat_map (fun lf => after lf c) (rev ls).
Definition spec_seq (ls : list (bool * nprobs)) (l : list ncmd) : res (list ncmd) :=
  if has_S l && negb (match ls with [] => true | _ => false end) then Err EValue else Ok (flat_map (around ls) l).
Lemma transp_noise_id f l : (forall a, f (NA a) = Ok [NA a]) -> forallb isNA l = true -> transp f l = Ok l.
Proof.
  intros H; induction l as [|c l IH]; simpl; auto. intros E. apply andb_prop in E as [E1 E2]. destruct c as [|a]; [discriminate|].
  rewrite H. simpl. rewrite IH; auto.
Qed.
Lemma transp_app f l1 l2 : transp f (l1 ++ l2) = do a <- transp f l1; do b <- transp f l2; Ok (a ++ b).
Proof.
  induction l1 as [|c l IH]; simpl; [destruct (transp f l2); auto|]. destruct (f c); simpl; auto. rewrite IH.
  destruct (transp f l); simpl; auto. destruct (transp f l2); simpl; auto. rewrite app_assoc. auto.
Qed.
Lemma around_cons_NA ls a : around ls (NA a) = [NA a].
Proof.
  unfold around. assert (forall l : list (bool * nprobs), flat_map (fun lf => before lf (NA a)) l = []) as -> by (induction l; auto).
  assert (forall l : list (bool * nprobs), flat_map (fun lf => after lf (NA a)) l = []) as -> by (induction l; auto). auto.
Qed.
Lemma before_NA lf c : forallb isNA (before lf c) = true.
Proof. destruct c as [[]|]; reflexivity. Qed.
Lemma after_NA lf c : forallb isNA (after lf c) = true.
Proof. destruct c as [[]|]; reflexivity. Qed.
Lemma flat_NA (f : (bool * nprobs) -> list ncmd) ls : (forall lf, forallb isNA (f lf) = true) -> forallb isNA (flat_map f ls) = true.
Proof. intros H; induction ls; simpl; auto. rewrite forallb_app, H, IHls. auto. Qed.
Definition one_spec (f : ncmd -> res (list ncmd)) (ls : list (bool * nprobs)) : Prop :=
  forall c, f c = spec_seq ls [c].
Lemma spec_transp f ls l : one_spec f ls -> transp f l = spec_seq ls l.
Proof.
  intros H; induction l as [|c l IH]; [unfold spec_seq; reflexivity|]. cbn [transp]. rewrite H, IH. unfold spec_seq. cbn [has_S existsb flat_map].
  fold (has_S l). destruct (match c with NC (CS _ _) => true | _ => false end); destruct (has_S l); destruct ls; simpl; rewrite ?app_nil_r; auto.
Qed.
Lemma around_app a b c : around (a ++ b) c = flat_map (fun lf => before lf c) a ++ around b c ++ flat_map (fun lf => after lf c) (rev a).
Proof. unfold around. rewrite flat_map_app, rev_app_distr, flat_map_app. rewrite <- !app_assoc. simpl. rewrite <- ?app_assoc. auto. Qed.
Lemma around_NAs ls l : forallb isNA l = true -> flat_map (around ls) l = l.
Proof. induction l as [|c l IH]; simpl; auto. destruct c; [discriminate|]. simpl. intros. rewrite around_cons_NA, IH; auto. Qed.
Lemma has_S_app l1 l2 : has_S (l1 ++ l2) = has_S l1 || has_S l2.
Proof. unfold has_S. apply existsb_app. Qed.
Lemma has_S_NA l : forallb isNA l = true -> has_S l = false.
Proof. induction l as [|c l IH]; simpl; auto. destruct c; [discriminate|]. auto. Qed.
Lemma has_S_around ls c : has_S (around ls c) = has_S [c].
Proof.
  unfold around. change (c :: flat_map (fun lf => after lf c) (rev ls)) with ([c] ++ flat_map (fun lf => after lf c) (rev ls)).
  rewrite !has_S_app, (has_S_NA (flat_map _ ls)), (has_S_NA (flat_map _ (rev ls))); [apply orb_false_r| |]; apply flat_NA; intros; [apply after_NA|apply before_NA].
Qed.
Lemma nm_spec m : one_spec (nm_command m) (leaves m).
Proof.
  induction m as [| | |ms IH] using nmodel_ind'; intros c.
  - destruct c as [[]|]; reflexivity.
  - destruct c as [[]|]; reflexivity.
  - destruct c as [[]|]; reflexivity.
  - cbn [nm_command leaves].
    match goal with |- ?g _ _ = _ => assert (G : forall done sq, Ok sq = spec_seq done [c] -> g ms sq = spec_seq (done ++ flat_map leaves ms) [c]) end.
    { induction IH as [|m ms Hm HF IH']; intros done sq E; [rewrite app_nil_r; auto|].
      cbn [flat_map]. rewrite (spec_transp _ _ sq Hm). unfold spec_seq in E at 1.
      destruct (has_S [c] && negb match done with [] => true | _ => false end) eqn:D; [discriminate|]. injection E as ->.
      cbn [flat_map] in *. rewrite app_nil_r in *. unfold spec_seq at 1. rewrite has_S_around.
      destruct (has_S [c] && negb match leaves m with [] => true | _ => false end) eqn:D2.
      - simpl. unfold spec_seq. apply andb_prop in D2 as [-> D2]. destruct (leaves m); [discriminate|]. destruct done; auto.
      - simpl. rewrite app_assoc. apply IH'. unfold spec_seq.
        assert (has_S [c] && negb match done ++ leaves m with [] => true | _ => false end = false) as ->.
        { destruct (has_S [c]); auto. destruct done; [|discriminate]. simpl. destruct (leaves m); auto. }
        cbn [flat_map]. rewrite app_nil_r, around_app. unfold around at 2.
        change (c :: flat_map (fun lf => after lf c) (rev done)) with ([c] ++ flat_map (fun lf => after lf c) (rev done)). rewrite !flat_map_app.
        cbn [flat_map]. rewrite app_nil_r. rewrite !(around_NAs (leaves m)); [reflexivity| |]; apply flat_NA; intros; [apply after_NA|apply before_NA]. }
    apply (G []). unfold spec_seq. destruct (has_S [c]); reflexivity.
Qed.
Lemma nm_transpile_spec m l : nm_transpile m l = spec_seq (leaves m) l.
Proof. apply spec_transp, nm_spec. Qed.

Lemma inserts_app l1 o1 l2 o2 : inserts l1 o1 -> inserts l2 o2 -> inserts (l1 ++ l2) (o1 ++ o2).
Proof. induction 1; simpl; auto; constructor; auto. Qed.
Lemma inserts_NAs l : forallb isNA l = true -> inserts [] l.
Proof. induction l as [|c l IH]; [constructor|]. destruct c; [discriminate|]. simpl. intros. constructor; auto. Qed.
Lemma inserts_around ls l : inserts l (flat_map (around ls) l).
Proof.
  induction l as [|c l IH]; [constructor|]. cbn [flat_map]. change (c :: l) with ([c] ++ l). apply inserts_app; auto. unfold around.
  change [c] with ([] ++ [c] ++ []). apply inserts_app; [apply inserts_NAs, flat_NA; intros; apply before_NA|].
  constructor. apply inserts_NAs, flat_NA; intros; apply after_NA.
Qed.
Lemma strip_app a b : strip (a ++ b) = strip a ++ strip b.
Proof. apply flat_map_app. Qed.
Lemma strip_NA l : forallb isNA l = true -> strip l = [].
Proof. induction l as [|c l IH]; auto. destruct c; [discriminate|]. simpl. auto. Qed.
Lemma strip_map l : strip (map NC l) = l.
Proof. induction l; simpl; congruence. Qed.
Lemma inserts_strip l out : inserts l out -> strip out = strip l.
Proof. induction 1; simpl; auto. rewrite IHinserts. auto. Qed.
Lemma app_eq_app' {A} (a b c d : list A) : a ++ b = c ++ d -> exists l, (a = c ++ l /\ d = l ++ b) \/ (c = a ++ l /\ b = l ++ d).
Proof.
  revert c; induction a as [|x a IH]; intros c E.
  - exists c. right. auto.
  - destruct c as [|y c].
    + exists (x :: a). left. auto.
    + injection E as -> E. destruct (IH c E) as (l & [[-> ->]|[-> ->]]); exists l; auto.
Qed.
Lemma strip_around ls c : strip (around ls (NC c)) = [c].
Proof.
  unfold around. rewrite strip_app, (strip_NA (flat_map _ ls)) by (apply flat_NA; intros; apply before_NA).
  change (strip (NC c :: ?x)) with (c :: strip x). cbn [app]. f_equal. apply (strip_NA (flat_map _ (rev ls))), flat_NA; intros; apply after_NA.
Qed.
(** the place of a noise command in the noisy sequence *)
Lemma spec_place ls cs pre a post : flat_map (around ls) (map NC cs) = pre ++ NA a :: post ->
  exists p c q, cs = p ++ c :: q /\ ((In (NA a) (flat_map (fun lf => before lf (NC c)) ls) /\ strip pre = p)
    \/ (In (NA a) (flat_map (fun lf => after lf (NC c)) (rev ls)) /\ strip pre = p ++ [c])).
Proof.
  revert pre. induction cs as [|c cs IH]; intros pre E; [destruct pre; discriminate|]. cbn [map flat_map] in E.
  destruct (app_eq_app' _ _ _ _ E) as (l & [[E1 E2]|[E1 E2]]).
  - destruct l as [|x l].
    + simpl in E2. rewrite app_nil_r in E1. destruct (IH [] (eq_sym E2)) as (p & c' & q & -> & H). exists (c :: p), c', q. split; auto.
      assert (strip pre = [c]) as S.
      { rewrite <- E1. apply strip_around. }
      rewrite S. simpl in H. destruct H as [[H1 H2]|[H1 H2]]; [left|right]; split; auto.
      * rewrite <- H2; auto.
      * simpl. rewrite <- H2. auto.
    + injection E2 as <- E2. exists [], c, cs. split; auto. unfold around in E1.
      destruct (app_eq_app' _ _ _ _ E1) as (l' & [[F1 F2]|[F1 F2]]).
      * destruct l' as [|y l']; [simpl in F2; discriminate|]. injection F2 as <- F2. left. rewrite F1. split; [apply in_or_app; simpl; auto|].
        assert (forallb isNA (pre ++ NA a :: l') = true) as K by (rewrite <- F1; apply flat_NA; intros; apply before_NA).
        rewrite forallb_app in K. apply andb_prop in K as [K _]. apply strip_NA; auto.
      * right. destruct l' as [|y l']; [simpl in F2; discriminate|]. injection F2 as <- F2. change (flat_map (fun lf => after lf (NC c)) (rev ls) = l' ++ NA a :: l) in F2.
        assert (forallb isNA (l' ++ NA a :: l) = true) as K by (rewrite <- F2; apply (flat_NA (fun lf => after lf (NC c))); intros; apply after_NA).
        rewrite F2. split; [apply in_or_app; simpl; auto|]. rewrite F1, strip_app, (strip_NA (flat_map _ ls)) by (apply flat_NA; intros; apply before_NA).
        simpl. rewrite forallb_app in K. apply andb_prop in K as [K _]. rewrite strip_NA; auto.
  - destruct (IH l E2) as (p & c' & q & -> & H). exists (c :: p), c', q. split; auto. rewrite E1, strip_app.
    rewrite strip_around.
    destruct H as [[H1 H2]|[H1 H2]]; [left|right]; rewrite H2; auto.
Qed.
(** parity of the errors drawn by the components *)
Fixpoint flips (u : nat -> R) (ls : list (bool * nprobs)) (k : nat) : bool :=
  match ls with [] => false | lf :: l' => xorb (if Rlt_dec (u k) (np_merr (snd lf)) then true else false) (flips u l' (S k)) end.
Lemma flips_app u a b k : flips u (a ++ b) k = xorb (flips u a k) (flips u b (k + length a)).
Proof.
  revert k; induction a as [|x a IH]; intros k; simpl; [rewrite Nat.add_0_r; destruct (flips u b k); auto|].
  rewrite IH, xorb_assoc. do 3 f_equal. lia.
Qed.
Lemma nm_confuse_spec u m : forall r k, nm_confuse u m (r, k) = (xorb r (flips u (leaves m) k), k + length (leaves m)).
Proof.
  induction m as [| | |ms IH] using nmodel_ind'; intros r k; cbn [nm_confuse leaves flips length].
  - rewrite xorb_false_r, Nat.add_0_r; auto.
  - unfold conf1. simpl. rewrite Nat.add_1_r. destruct (Rlt_dec _ _); simpl; rewrite ?xorb_false_r, ?xorb_true_r; auto.
  - unfold conf1. simpl. rewrite Nat.add_1_r. destruct (Rlt_dec _ _); simpl; rewrite ?xorb_false_r, ?xorb_true_r; auto.
  - revert r k; induction IH as [|m ms Hm HF IH']; intros r k; cbn [fold_left flat_map flips length]; [simpl; rewrite xorb_false_r, Nat.add_0_r; auto|].
    rewrite Hm, IH', flips_app, app_length, xorb_assoc. f_equal. lia.
Qed.
