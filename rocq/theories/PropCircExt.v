(** C30, C31, C32: Pauli strings, Clifford synthesis, Pauli-exponential ladders. *)
From Coq Require Import Reals Lra Arith List Bool Lia Permutation FunctionalExtensionality Ascii.
From Verif Require Import Cplx Mat2 NSet QState Fundamentals Clifford Measure Pattern Statevec Density Circuit Swaps OpenGraph Flow PauliStr PauliOp Berg Ladder.
Import ListNotations.
Local Open Scope list_scope.

(** * C30: Pauli strings, texts and tableaux *)
Lemma half_odd n : ((2 * n + 1) / 2 = n)%nat.
Proof. rewrite (Nat.mul_comm 2 n), Nat.div_add_l by lia. cbn. lia. Qed.
Lemma even_odd n : Nat.even (2 * n + 1) = false.
Proof. rewrite Nat.add_comm. rewrite Nat.even_add_mul_2. auto. Qed.
Lemma xz_ax o : xz_axis (match o with Some a => ax_x a | None => false end) (match o with Some a => ax_z a | None => false end) = o.
Proof. destruct o as [[]|]; auto. Qed.
Lemma xz_ax_x x z : match xz_axis x z with Some a => ax_x a | None => false end = x.
Proof. destruct x, z; auto. Qed.
Lemma xz_ax_z x z : match xz_axis x z with Some a => ax_z a | None => false end = z.
Proof. destruct x, z; auto. Qed.
Lemma axes_ok l s : ps_ok (PStr (length l) (axes_of 0 l) s).
Proof. split; cbn [ps_axes ps_dim]; [apply axes_of_nodup|]. intros q Hq. apply axes_of_keys in Hq. lia. Qed.
Lemma minus_if_s p : minus_if (ps_s p) = ps_sign p.
Proof. unfold ps_s. destruct (ps_sign p); auto. Qed.
Lemma range_len n : length (range n) = n.
Proof. apply seq_length. Qed.
(** what from_tableau reads *)
Lemma from_tableau_spec t : Nat.odd (length t) = true -> let n := (length t / 2)%nat in
  exists p, from_tableau t = Ok p /\ ps_ok p /\ ps_dim p = n /\ length t = (2 * n + 1)%nat /\
  (forall q, (q < n)%nat -> ps_x p q = nth q t false /\ ps_z p q = nth (q + n) t false) /\ ps_s p = nth (2 * n) t false.
Proof.
  intros O n. pose proof (Nat.div2_odd (length t)) as E. rewrite O in E. cbn [Nat.b2n] in E. rewrite Nat.div2_div in E. fold n in E.
  unfold from_tableau. rewrite <- Nat.negb_odd, O. cbn [negb]. fold n. set (l := map _ (range n)).
  assert (L : length l = n) by (unfold l; rewrite map_length; apply range_len).
  eexists. split; [reflexivity|]. split; [rewrite <- L at 1; apply axes_ok|]. cbn [ps_dim]. split; [auto|]. split; [lia|]. split.
  - intros q Hq. unfold ps_x, ps_z. cbn [ps_axes]. rewrite axes_of_get0. unfold l. rewrite map_range_nth by auto. rewrite xz_ax_x, xz_ax_z, (Nat.add_comm q n). auto.
  - unfold ps_s. cbn [ps_sign]. replace (length t - 1)%nat with (2 * n)%nat by lia. destruct (nth (2 * n) t false); auto.
Qed.
(** to_tableau then from_tableau gives an equal string (dicts compared as maps) *)
Theorem C30_tableau_round p : ps_ok p -> exists t p', to_tableau p = Ok t /\ from_tableau t = Ok p' /\ ps_eq p' p /\ length t = (2 * ps_dim p + 1)%nat.
Proof.
  intros OK. destruct (to_tableau_spec p OK) as (t & E & L & A & B & S). exists t.
  destruct (from_tableau_spec t) as (p' & E' & OK' & D & _ & X & S'). { rewrite L, <- Nat.negb_even, even_odd. auto. }
  rewrite L, half_odd in *. exists p'. split; [auto|]. split; [auto|]. split; [|auto]. split; [auto|]. split.
  - rewrite <- (minus_if_s p'), <- (minus_if_s p), S', S. auto.
  - intros k. destruct (Nat.lt_ge_cases k (ps_dim p)) as [Hk|Hk].
    + destruct (X k Hk) as [X1 X2]. rewrite A in X1 by auto. rewrite B in X2 by auto. unfold ps_x, ps_z in *. rewrite <- (xz_ax (dget (ps_axes p') k)), <- (xz_ax (dget (ps_axes p) k)). rewrite X1, X2. auto.
    + assert (N : forall r, ps_ok r -> ps_dim r = ps_dim p -> dget (ps_axes r) k = None).
      { intros r [_ R] Dr. apply dget_None. intros K. apply R in K. lia. }
      rewrite !N; auto.
Qed.
Print Assumptions C30_tableau_round.
Lemma list_nth_eq (a b : list bool) : length a = length b -> (forall i, (i < length a)%nat -> nth i a false = nth i b false) -> a = b.
Proof. intros L H. apply (nth_ext _ _ false false); auto. Qed.
(** from_tableau then to_tableau gives back the same array; even lengths are rejected *)
Theorem C30_tableau_round_back t : 
  (Nat.odd (length t) = true -> exists p, from_tableau t = Ok p /\ ps_ok p /\ to_tableau p = Ok t) /\
  (Nat.odd (length t) = false -> from_tableau t = Err EValue).
Proof.
  split; intros O.
  - destruct (from_tableau_spec t O) as (p & E & OK & D & L & X & S). exists p. split; [auto|]. split; [auto|].
    destruct (to_tableau_spec p OK) as (t' & E' & L' & A & B & S'). rewrite E'. f_equal. rewrite D in *. set (n := (length t / 2)%nat) in *.
    apply list_nth_eq; [lia|]. intros i Hi. destruct (Nat.lt_ge_cases i n) as [H1|H1].
    + rewrite A by auto. apply X; auto.
    + destruct (Nat.lt_ge_cases i (2 * n)) as [H2|H2].
      * replace i with (i - n + n)%nat by lia. rewrite B by lia. apply X. lia.
      * replace i with (2 * n)%nat by lia. congruence.
  - unfold from_tableau. rewrite <- Nat.negb_odd, O. auto.
Qed.
Print Assumptions C30_tableau_round_back.
(** the string read from a tableau is the operator (-1)^s prod_q P(x_q, z_q),
    with P(1,0) = X, P(0,1) = Z, P(1,1) = Y *)
Theorem C30_tableau_meaning t p : from_tableau t = Ok p -> forall psi,
  ps_op p psi = cscale (sgn (nth (2 * ps_dim p) t false))
    (fold_right (fun q f => app_op (OApp1 (match nth q t false, nth (q + ps_dim p) t false with true, false => mX | false, true => mZ | true, true => mY | _, _ => mid end) q) f)
       psi (range (ps_dim p))).
Proof.
  intros E psi. assert (O : Nat.odd (length t) = true). { unfold from_tableau in E. rewrite <- Nat.negb_odd in E. destruct (Nat.odd (length t)); auto. discriminate. }
  destruct (from_tableau_spec t O) as (p' & E' & OK & D & L & X & S). rewrite E in E'. injection E' as <-. rewrite ps_op_pprod by auto. rewrite D. unfold sgnop. rewrite S. f_equal.
  change (pprod (range (length t / 2)) (ps_x p) (ps_z p) psi = pprod (range (length t / 2)) (fun q => nth q t false) (fun q => nth (q + length t / 2) t false) psi).
  apply pprod_ext. intros q Hq. apply in_seq in Hq. apply X. lia.
Qed.
Print Assumptions C30_tableau_meaning.
(** texts *)
Lemma char_ixyz_char o : char_ixyz (ixyz_char o) = Some o.
Proof. destruct o as [[]|]; reflexivity. Qed.
Lemma char_ixyz_inv c o : char_ixyz c = Some o -> ixyz_char o = c.
Proof.
  unfold char_ixyz. destruct (Ascii.eqb_spec c "X") as [->|]; [intros [= <-]; auto|]. destruct (Ascii.eqb_spec c "Y") as [->|]; [intros [= <-]; auto|].
  destruct (Ascii.eqb_spec c "Z") as [->|]; [intros [= <-]; auto|]. destruct (Ascii.eqb_spec c "I") as [->|]; [intros [= <-]; auto|]. discriminate.
Qed.
Lemma ops_of_map l : ops_of (map ixyz_char l) = Ok l.
Proof. induction l as [|o l IH]; auto. cbn [map ops_of]. rewrite char_ixyz_char, IH. auto. Qed.
Lemma ops_of_inv s l : ops_of s = Ok l -> map ixyz_char l = s.
Proof.
  revert l. induction s as [|c s IH]; intros l; cbn [ops_of]; [intros [= <-]; auto|]. destruct (char_ixyz c) as [o|] eqn:E; [|discriminate].
  destruct (ops_of s) as [r|]; [|discriminate]. cbn [rbind]. intros [= <-]. cbn [map]. rewrite (IH r), (char_ixyz_inv _ _ E); auto.
Qed.
Lemma str_axes l s : ps_str (PStr (length l) (axes_of 0 l) s) = sign_char s :: map ixyz_char l.
Proof.
  unfold ps_str. cbn [ps_sign ps_dim ps_axes]. f_equal. apply (nth_ext _ _ "I"%char "I"%char).
  - rewrite !map_length, range_len. auto.
  - intros i Hi. rewrite map_length, range_len in Hi. rewrite map_range_nth by auto. rewrite axes_of_get0.
    rewrite (nth_indep _ "I"%char (ixyz_char None)) by (rewrite map_length; auto). rewrite map_nth. auto.
Qed.
Theorem C30_str_round p : ps_ok p -> exists p', from_str (ps_str p) = Ok p' /\ ps_eq p' p.
Proof.
  intros [ND LT]. unfold from_str, ps_str. set (l := map (dget (ps_axes p)) (range (ps_dim p))).
  assert (M : map (fun q => ixyz_char (dget (ps_axes p) q)) (range (ps_dim p)) = map ixyz_char l) by (unfold l; rewrite map_map; auto). rewrite M.
  exists (PStr (length l) (axes_of 0 l) (ps_sign p)). split.
  - destruct (ps_sign p); cbn [sign_char]; cbn [Ascii.eqb Bool.eqb]; rewrite ?ops_of_map; cbn [rbind]; rewrite ops_of_map; reflexivity.
  - assert (L : length l = ps_dim p) by (unfold l; rewrite map_length; apply range_len). split; [auto|]. split; [auto|]. intros k. cbn [ps_axes]. rewrite axes_of_get0.
    destruct (Nat.lt_ge_cases k (ps_dim p)) as [Hk|Hk].
    + unfold l. rewrite map_range_nth; auto.
    + rewrite nth_overflow by lia. symmetry. apply dget_None. intros K. apply LT in K. lia.
Qed.
Print Assumptions C30_str_round.
(** exactly the texts [+-]?[XYZI]* are accepted, and str of the result is the
    text with an explicit sign *)
Definition pauli_chars (s : list ascii) : Prop := forall c, In c s -> In c ["X"; "Y"; "Z"; "I"]%char.
Definition signed_text (s : list ascii) : list ascii := match s with "+" :: _ | "-" :: _ => s | _ => "+" :: s end%char.
Definition pauli_text (s : list ascii) : Prop := match s with "+" :: l | "-" :: l => pauli_chars l | _ => pauli_chars s end%char.
Lemma pauli_char_iff c : In c ["X"; "Y"; "Z"; "I"]%char <-> exists o, char_ixyz c = Some o.
Proof.
  split.
  - intros [<-|[<-|[<-|[<-|[]]]]]; eexists; reflexivity.
  - intros (o & E). apply char_ixyz_inv in E. subst. destruct o as [[]|]; cbn; auto.
Qed.
Lemma ops_of_iff s : (exists l, ops_of s = Ok l) <-> pauli_chars s.
Proof.
  induction s as [|c s IH]; cbn [ops_of]; split.
  - intros _ d [].
  - intros _. eauto.
  - intros (l & E). destruct (char_ixyz c) as [o|] eqn:Ec; [|discriminate]. destruct (ops_of s) as [r|]; [|discriminate].
    intros d [<-|Hd]; [apply pauli_char_iff; eauto|]. apply IH; eauto.
  - intros H. destruct (proj1 (pauli_char_iff c)) as (o & ->). { apply H; cbn; auto. } destruct (proj2 IH) as (r & ->). { intros d Hd. apply H; cbn; auto. } cbn. eauto.
Qed.
Lemma ops_of_err s e : ops_of s = Err e -> e = EValue.
Proof.
  induction s as [|c s IH]; cbn [ops_of]; [discriminate|]. destruct (char_ixyz c); [|intros [= <-]; auto]. destruct (ops_of s); [discriminate|]. cbn. intros [= <-]; auto.
Qed.
Lemma from_str_body sg chars : 
  (exists p, (do ops <- ops_of chars; Ok (PStr (length ops) (axes_of 0 ops) sg)) = Ok p /\ ps_ok p /\ ps_str p = sign_char sg :: chars /\ pauli_chars chars) \/
  ((do ops <- ops_of chars; Ok (PStr (length ops) (axes_of 0 ops) sg)) = Err EValue /\ ~ pauli_chars chars).
Proof.
  destruct (ops_of chars) as [l|e] eqn:E; cbn [rbind].
  - left. eexists. split; [reflexivity|]. split; [apply axes_ok|]. split; [rewrite str_axes, (ops_of_inv _ _ E); auto|]. apply ops_of_iff. eauto.
  - right. rewrite (ops_of_err _ _ E). split; auto. intros K. apply ops_of_iff in K. destruct K as (l & K). congruence.
Qed.
Theorem C30_from_str s :
  (pauli_text s -> exists p, from_str s = Ok p /\ ps_ok p /\ ps_str p = signed_text s) /\
  (~ pauli_text s -> from_str s = Err EValue).
Proof.
  destruct s as [|c l].
  - split; [intros _; exists (PStr 0 [] Plus); split; [auto|]; split; [split; [constructor|intros q []]|reflexivity]|]. intros H. exfalso. apply H. intros c [].
  - unfold from_str, pauli_text, signed_text. destruct (Ascii.eqb_spec c "+") as [->|N1]; [|destruct (Ascii.eqb_spec c "-") as [->|N2]].
    + cbn [rbind]. destruct (from_str_body Plus l) as [(p & E & OK & S & K)|[E K]]; rewrite E; split; intros H; try tauto; eauto.
    + cbn [rbind]. destruct (from_str_body Minus l) as [(p & E & OK & S & K)|[E K]]; rewrite E; split; intros H; try tauto; eauto.
    + replace (match c with "+" | "-" => pauli_chars l | _ => pauli_chars (c :: l) end%char) with (pauli_chars (c :: l)).
      2:{ destruct c as [[] [] [] [] [] [] [] []]; try reflexivity; congruence. }
      replace (match c with "+" | "-" => c :: l | _ => "+" :: c :: l end%char) with ("+"%char :: c :: l).
      2:{ destruct c as [[] [] [] [] [] [] [] []]; try reflexivity; congruence. }
      destruct (char_ixyz c) as [o|] eqn:Ec.
      * cbn [rbind]. destruct (from_str_body Plus (c :: l)) as [(p & E & OK & S & K)|[E K]]; rewrite E; split; intros H; try tauto; eauto.
      * cbn [rbind]. split; intros H; auto. exfalso. destruct (proj1 (pauli_char_iff c)) as (o & K); [apply H; cbn; auto|congruence].
Qed.
Print Assumptions C30_from_str.
(** non-vacuity: "-XIY" *)
Example C30_instance : from_str ["-"; "X"; "I"; "Y"]%char = Ok (PStr 3 [(0, AX); (2, AY)]%nat Minus) /\
  to_tableau (PStr 3 [(2, AY); (0, AX)]%nat Minus) = Ok [true; false; true; false; false; true; true].
Proof. split; reflexivity. Qed.
(** a key outside range(dim), which the constructor does not reject, is written
    into the columns of another qubit: the round trip then changes the string *)
Theorem C30_out_of_range_refuted : exists p t p', to_tableau p = Ok t /\ from_tableau t = Ok p' /\ ~ ps_eq p' p.
Proof. exists (PStr 1 [(1%nat, AX)] Plus). eexists. eexists. split; [reflexivity|]. split; [reflexivity|]. intros (_ & _ & H). specialize (H 0%nat). discriminate. Qed.
Print Assumptions C30_out_of_range_refuted.

(** * C31: Clifford synthesis *)
(** the tableau row of a string, updated for a gate, is the row of the string
    conjugated by that gate: G P = P' G *)
Definition conjugates (G : state -> state) (p p' : pstring) : Prop := ps_dim p' = ps_dim p /\ forall psi, G (ps_op p psi) = ps_op p' (G psi).
Lemma row_rop r p n : from_tableau r = Ok p -> ps_dim p = n -> rlen n r /\ forall psi, rop n r psi = ps_op p psi.
Proof.
  intros E D. assert (O : Nat.odd (length r) = true). { unfold from_tableau in E. rewrite <- Nat.negb_odd in E. destruct (Nat.odd (length r)); auto. discriminate. }
  destruct (C30_tableau_round_back r) as [H _]. destruct (H O) as (p' & E' & OK & T). rewrite E in E'. injection E' as <-.
  split; [apply (tab_rop n p r (fun _ => C0) OK D T)|]. intros psi. apply (tab_rop n p r psi OK D T).
Qed.
Lemma step_strings g r p : from_tableau r = Ok p -> tok (ps_dim p) g -> exists p', from_tableau (trow (ps_dim p) g r) = Ok p' /\ conjugates (tgate g) p p'.
Proof.
  intros E OK. destruct (row_rop r p _ E eq_refl) as [L R].
  assert (O : Nat.odd (length (trow (ps_dim p) g r)) = true). { rewrite trow_len. unfold rlen in L. rewrite L, <- Nat.negb_even, even_odd. auto. }
  destruct (from_tableau_spec _ O) as (p' & E' & _ & D & _). rewrite trow_len, L, half_odd in D. exists p'. split; [auto|]. split; [auto|].
  destruct (row_rop _ p' _ E' D) as [_ R']. intros psi. rewrite <- R, (step_conj _ g r psi OK L), R'. auto.
Qed.
Theorem C31_updates r p q q' : from_tableau r = Ok p -> (q < ps_dim p)%nat -> (q' < ps_dim p)%nat ->
  (exists p', from_tableau (row_h (ps_dim p) q r) = Ok p' /\ conjugates (gate (IH q)) p p') /\
  (exists p', from_tableau (row_s (ps_dim p) q r) = Ok p' /\ conjugates (gate (IS q)) p p') /\
  (q <> q' ->
   (exists p', from_tableau (row_cnot (ps_dim p) q q' r) = Ok p' /\ conjugates (gate (ICNOT q' q)) p p') /\
   (exists p', from_tableau (row_swap (ps_dim p) q q' r) = Ok p' /\ conjugates (gate (ISWAP q q')) p p')).
Proof.
  intros E Hq Hq'. assert (O1 : NoDup [q] /\ forall j, In j [q] -> (j < ps_dim p)%nat) by (split; [apply nodup1|intros j [<-|[]]; auto]).
  split; [apply (step_strings (TH q) r p E); apply O1|]. split; [apply (step_strings (TS q) r p E); apply O1|].
  intros N. assert (O2 : NoDup [q; q'] /\ forall j, In j [q; q'] -> (j < ps_dim p)%nat) by (split; [apply nodup2; auto|intros j [<-|[<-|[]]]; auto]).
  split; [apply (step_strings (TC q q') r p E); apply O2|apply (step_strings (TW q q') r p E); apply O2].
Qed.
Print Assumptions C31_updates.

(** the announced gate set *)
Definition berg_gate (i : instr) : Prop := match i with IH _ | IS _ | ICNOT _ _ | ISWAP _ _ | IX _ | IY _ | IZ _ => True | _ => False end.
Definition bgs (st : bst) : Prop := forall i, In i (snd st) -> berg_gate i.
Lemma bgs_app t l l' t' : bgs (t, l) -> (forall i, In i l' -> berg_gate i) -> bgs (t', l ++ l').
Proof. intros A B i Hi. apply in_app_or in Hi. destruct Hi; auto. Qed.
Lemma bgs_h n q st : bgs st -> bgs (add_h n q st).
Proof. intros H. unfold add_h. destruct st as [t l]. cbn [fst snd]. eapply bgs_app; eauto. simpl. intuition; subst; exact I. Qed.
Lemma bgs_s n q st : bgs st -> bgs (add_s n q st).
Proof. intros H. unfold add_s. destruct st as [t l]. cbn [fst snd]. eapply bgs_app; eauto. simpl. intuition; subst; exact I. Qed.
Lemma bgs_cnot n q q' st : bgs st -> bgs (add_cnot n q q' st).
Proof. intros H. unfold add_cnot. destruct st as [t l]. cbn [fst snd]. eapply bgs_app; eauto. simpl. intuition; subst; exact I. Qed.
Lemma bgs_swap n q q' st : bgs st -> bgs (add_swap n q q' st).
Proof. intros H. unfold add_swap. destruct st as [t l]. cbn [fst snd]. eapply bgs_app; eauto. simpl. intuition; subst; exact I. Qed.
Lemma bgs_1 n row st : bgs st -> bgs (do_step_1 n row st).
Proof.
  unfold do_step_1. generalize (flatnonzero (nth row (fst st) []) n n). intros l. revert st. induction l as [|j l IH]; intros st H; auto. cbn [fold_left]. apply IH.
  destruct (tent (fst st) row j); auto using bgs_h, bgs_s.
Qed.
Lemma bgs_pairs n l : forall st, bgs st -> bgs (cnot_pairs n l st).
Proof. induction l as [| |a b l IH] using list_ind2; intros st H; auto. cbn [cnot_pairs]. apply IH, bgs_cnot; auto. Qed.
Lemma bgs_2 n row st p st' : bgs st -> do_step_2 n row st = Ok (p, st') -> bgs st'.
Proof.
  unfold do_step_2. generalize (flatnonzero (nth row (fst st) []) 0 n). intros cols. generalize (length cols). intros k. revert cols st. induction k as [|k IH]; intros [|a [|b l]] st H; cbn [step2_loop]; try discriminate.
  - intros [= _ <-]. auto.
  - intros [= _ <-]. auto.
  - intros E. eapply IH; [|exact E]. apply bgs_pairs; auto.
Qed.
Lemma bgs_process n st q st' : bgs st -> process_qubit n st q = Ok st' -> bgs st'.
Proof.
  intros H. unfold process_qubit. destruct (do_step_2 n q (do_step_1 n q st)) as [[pv s1]|] eqn:E1; cbn [rbind]; [|discriminate].
  apply bgs_2 in E1; [|apply bgs_1; auto]. set (s2 := if (pv =? q)%nat then s1 else add_swap n q pv s1). assert (B2 : bgs s2) by (unfold s2; destruct (pv =? q)%nat; auto using bgs_swap).
  assert (G : forall r, (do (pivot, st0) <- do_step_2 n (q + n) (do_step_1 n (q + n) (add_h n q s2)); if (pivot =? q)%nat then Ok (add_h n q st0) else Err EAssert) = Ok r -> bgs r).
  { intros r. destruct (do_step_2 n (q + n) (do_step_1 n (q + n) (add_h n q s2))) as [[pv2 s3]|] eqn:E2; cbn [rbind]; [|discriminate].
    apply bgs_2 in E2; [|apply bgs_1, bgs_h; auto]. destruct (pv2 =? q)%nat; [|discriminate]. intros [= <-]. apply bgs_h; auto. }
  destruct (flatnonzero _ 0 (2 * n)) as [|c [|c' l]]; [apply G| |apply G]. destruct (c =? q + n)%nat; [|apply G]. intros [= <-]. auto.
Qed.
Lemma berg_gates_ok cm l : berg_instrs cm = Ok l -> forall i, In i l -> berg_gate i.
Proof.
  unfold berg_instrs. destruct (cm_tableau cm) as [tab|]; cbn [rbind]; [|discriminate]. set (n := length (cm_out cm)).
  assert (G : forall qs st st', rfold (process_qubit n) qs st = Ok st' -> bgs st -> bgs st').
  { induction qs as [|q qs IH]; intros st st'; cbn [rfold]; [intros [= <-]; auto|]. destruct (process_qubit n st q) as [s1|] eqn:E; [|discriminate]. intros E' H. eapply IH; eauto. eapply bgs_process; eauto. }
  match goal with |- context [rfold ?f ?l ?a] => destruct (rfold f l a) as [st|] eqn:E end; cbn [rbind]; [|discriminate]. intros [= <-] i Hi. apply in_rev in Hi.
  assert (B : bgs st) by (eapply G; [exact E|intros j []]). unfold correct_signs in Hi. cbn [snd] in Hi. apply in_app_or in Hi. destruct Hi as [Hi|Hi]; [auto|].
  apply in_flat_map in Hi. destruct Hi as (q & _ & Hi). unfold sign_instr in Hi. destruct (tent (fst st) q (2 * n)), (tent (fst st) (q + n) (2 * n)); simpl in Hi; intuition; subst; exact I.
Qed.
(** for any valid Clifford map and any circuit of that width the pass appends
    gates of the announced set that map every generator to its image *)
Theorem C31_synthesis n cm c : (0 < n)%nat -> cm_valid n cm -> c_width c = n -> c_active c = of_list (range n) ->
  exists l, cm_berg_pass cm c = Ok (Circ n (c_instr c ++ l) (of_list (range n))) /\
    (forall i, In i l -> berg_gate i /\ NoDup (iqubits i) /\ forall q, In q (iqubits i) -> (q < n)%nat) /\
    forall o k, realises n cm (csem o k l).
Proof.
  intros Hn V W A. destruct (berg_correct n cm Hn V) as (l & E & OK & R). exists l. split; [|split; [|auto]].
  - unfold cm_berg_pass. rewrite E. cbn [rbind]. apply circ_extend_ok; auto.
  - intros i Hi. split; [eapply berg_gates_ok; eauto|]. apply OK in Hi. destruct Hi as (_ & H). auto.
Qed.
Print Assumptions C31_synthesis.
(** only unitaries are handled *)
Theorem C31_isometry cm c : length (cm_in cm) <> length (cm_out cm) -> cm_berg_pass cm c = Err ENotImplemented.
Proof. intros N. apply Nat.eqb_neq in N. unfold cm_berg_pass, berg_instrs, cm_tableau. rewrite N. reflexivity. Qed.
Print Assumptions C31_isometry.
(** a Clifford map on no qubit (the identity) is not handled: numpy refuses to
    stack no rows *)
Theorem C31_empty_refuted : exists cm, cm_valid 0 cm /\ forall c, cm_berg_pass cm c = Err EValue.
Proof.
  exists (CMap [] [] [] []). split; [|reflexivity]. split; [auto|]. split; [auto|]. split; [auto|]. split; [auto|]. split; [intros p []|]. intros i j Hi. lia.
Qed.
Print Assumptions C31_empty_refuted.
(** non-vacuity: the images of the generators under conjugation by any
    invertible operator form a valid map; here a CNOT *)
Lemma realises_valid n cm F G : 
  length (cm_x cm) = n -> length (cm_z cm) = n -> length (cm_in cm) = n -> length (cm_out cm) = n ->
  (forall p, In p (cm_x cm ++ cm_z cm) -> ps_ok p /\ ps_dim p = n) ->
  (forall psi, F (G psi) = psi) -> (forall c psi, F (cscale c psi) = cscale c (F psi)) -> realises n cm F -> cm_valid n cm.
Proof.
  intros LX LZ LI LO OK FG FS R. do 5 (split; [auto|]). intros i j Hi Hj.
  assert (XX : forall psi, app_op (OApp1 mX i) (app_op (OApp1 mX j) psi) = app_op (OApp1 mX j) (app_op (OApp1 mX i) psi)).
  { intros psi. destruct (Nat.eq_dec i j) as [->|N]; auto. apply app1_comm; auto. }
  assert (ZZ : forall psi, app_op (OApp1 mZ i) (app_op (OApp1 mZ j) psi) = app_op (OApp1 mZ j) (app_op (OApp1 mZ i) psi)).
  { intros psi. destruct (Nat.eq_dec i j) as [->|N]; auto. apply app1_comm; auto. }
  split; [|split].
  - intros psi. rewrite <- (FG psi). destruct (R i Hi (app_op (OApp1 mX j) (G psi))) as [A _]. destruct (R j Hj (app_op (OApp1 mX i) (G psi))) as [B _].
    rewrite <- (proj1 (R j Hj _)), <- A, XX, B, (proj1 (R i Hi _)). auto.
  - intros psi. rewrite <- (FG psi). destruct (R i Hi (app_op (OApp1 mZ j) (G psi))) as [_ A]. destruct (R j Hj (app_op (OApp1 mZ i) (G psi))) as [_ B].
    rewrite <- (proj2 (R j Hj _)), <- A, ZZ, B, (proj2 (R i Hi _)). auto.
  - destruct (R i Hi (fun _ => C0)) as [_ _]. destruct (Nat.eqb_spec i j) as [<-|N]; intros psi; rewrite <- (FG psi).
    + rewrite <- (proj2 (R i Hi _)), <- (proj1 (R i Hi _)), <- (proj1 (R i Hi _)), <- (proj2 (R i Hi _)), <- FS. f_equal. rewrite !app1_app1. apply app1_scale. meq; ring.
    + rewrite <- (proj2 (R j Hj _)), <- (proj1 (R i Hi _)), <- (proj1 (R i Hi _)), <- (proj2 (R j Hj _)). f_equal. apply app1_comm; auto.
Qed.
Definition cnot_map : cmap :=
  CMap [PStr 2 [(0, AX); (1, AX)]%nat Plus; PStr 2 [(1%nat, AX)] Plus] [PStr 2 [(0%nat, AZ)] Plus; PStr 2 [(0, AZ); (1, AZ)]%nat Plus] [0; 1]%nat [2; 3]%nat.
Example C31_instance : cm_valid 2 cnot_map.
Proof.
  apply (realises_valid 2 cnot_map (gate (ICNOT 1 0)) (gate (ICNOT 1 0))); auto.
  - intros p [<-|[<-|[<-|[<-|[]]]]]; (split; [|auto]); (split; cbn [ps_axes dkeys map fst]; [repeat constructor; simpl; intuition discriminate|simpl; intros; lia]).
  - intros. apply cnot_cnot. auto.
  - intros. apply gate_scale.
  - intros i Hi psi.
    assert (G : forall r r' p p' psi, from_tableau r = Ok p -> ps_dim p = 2%nat -> row_cnot 2 0 1 r = r' -> from_tableau r' = Ok p' -> gate (ICNOT 1 0) (ps_op p psi) = ps_op p' (gate (ICNOT 1 0) psi)).
    { clear. intros r r' p p' psi E D E2 E3. destruct (C31_updates r p 0 1 E) as (_ & _ & H); try lia. destruct (H ltac:(lia)) as [(q & Q1 & Q2 & Q3) _]. rewrite D, E2, E3 in Q1. injection Q1 as <-. apply Q3. }
    assert (PX : forall q psi, app_op (OApp1 mX q) psi = ps_op (PStr 2 [(q, AX)] Plus) psi) by (intros; unfold ps_op; cbn [ps_sign sign_C]; rewrite cscale_1; auto).
    assert (PZ : forall q psi, app_op (OApp1 mZ q) psi = ps_op (PStr 2 [(q, AZ)] Plus) psi) by (intros; unfold ps_op; cbn [ps_sign sign_C]; rewrite cscale_1; auto).
    assert (i = 0 \/ i = 1)%nat as [-> | ->] by lia; rewrite PX, PZ; split.
    + apply (G [true; false; false; false; false] _ _ _ _ eq_refl eq_refl eq_refl). reflexivity.
    + apply (G [false; false; true; false; false] _ _ _ _ eq_refl eq_refl eq_refl). reflexivity.
    + apply (G [false; true; false; false; false] _ _ _ _ eq_refl eq_refl eq_refl). reflexivity.
    + apply (G [false; false; false; true; false] _ _ _ _ eq_refl eq_refl eq_refl). reflexivity.
Qed.

(** * C32: Pauli exponentials *)
(** [exp_op a P] is exp(i a pi P): the one-parameter group generated by i pi P.
    The operator of a Pauli string is an involution, which makes the closed form
    cos + i sin P a group; its derivative is i pi P times itself. *)
Theorem C32_exp_meaning p : ps_ok p -> forall psi, 
  exp_op 0 (ps_op p) psi = psi /\
  (forall a b, exp_op (a + b) (ps_op p) psi = exp_op a (ps_op p) (exp_op b (ps_op p) psi)) /\
  (forall a f, derivable_pt_lim (fun a => re (exp_op a (ps_op p) psi f)) a (re (Ci * RtoC PI * ps_op p (exp_op a (ps_op p) psi) f)%C) /\
               derivable_pt_lim (fun a => im (exp_op a (ps_op p) psi f)) a (im (Ci * RtoC PI * ps_op p (exp_op a (ps_op p) psi) f)%C)).
Proof.
  intros OK psi.
  assert (SQ : forall psi, ps_op p (ps_op p psi) = psi).
  { clear psi. intros psi. rewrite !ps_op_pprod by auto. unfold sgnop. rewrite pprod_scale, cscale_cscale, pprod_sq by apply seq_NoDup.
    destruct (ps_s p); cbn [sgn]; [replace (- C1 * - C1)%C with C1 by ring|replace (C1 * C1)%C with C1 by ring]; apply cscale_1. }
  assert (LIN : linear (ps_op p)).
  { split; intros; unfold ps_op.
    - rewrite axes_op_scale, !cscale_cscale. f_equal. ring.
    - assert (G : forall l a b, axes_op l (sadd_st a b) = sadd_st (axes_op l a) (axes_op l b)).
      { induction l as [|e l IH]; intros; auto. unfold axes_op in *. cbn [fold_right]. rewrite IH. apply linear_app1. }
      rewrite G. extensionality f. unfold sadd_st, cscale. ring. }
  destruct LIN as [LS LA].
  split; [|split].
  - unfold exp_op. rewrite Rmult_0_l, cos_0, sin_0. extensionality f. unfold sadd_st, cscale. apply C_eq; cbn; ring.
  - intros a b. unfold exp_op. rewrite LA, !LS, SQ. rewrite Rmult_plus_distr_r, cos_plus, sin_plus. extensionality f. unfold sadd_st, cscale. apply C_eq; cbn; ring.
  - intros a f. unfold exp_op. rewrite LA, !LS, SQ. unfold sadd_st, cscale. cbn [re im Cadd Cmul RtoC Ci].
    generalize (psi f), (ps_op p psi f). intros [x y] [u v]. cbn [re im].
    assert (D : forall k m, derivable_pt_lim (fun a => k * cos (a * PI) + m * sin (a * PI))%R a (k * (- sin (a * PI) * PI) + m * (cos (a * PI) * PI))%R).
    { assert (DI : derivable_pt_lim (fun a => a * PI)%R a PI).
      { replace (fun a => a * PI)%R with (mult_real_fct PI id) by (extensionality t; unfold mult_real_fct, id; ring). replace PI with (PI * 1)%R at 2 by ring. apply derivable_pt_lim_scal, derivable_pt_lim_id. }
      intros k m. apply (derivable_pt_lim_plus (fun a => k * cos (a * PI))%R (fun a => m * sin (a * PI))%R).
      - apply (derivable_pt_lim_scal (fun a => cos (a * PI))%R). apply (derivable_pt_lim_comp (fun a => a * PI)%R cos); [exact DI|apply derivable_pt_lim_cos].
      - apply (derivable_pt_lim_scal (fun a => sin (a * PI))%R). apply (derivable_pt_lim_comp (fun a => a * PI)%R sin); [exact DI|apply derivable_pt_lim_sin]. }
    split; [specialize (D x (- v)%R)|specialize (D y u)]; match type of D with derivable_pt_lim ?F _ ?d => match goal with |- derivable_pt_lim ?G _ ?e =>
      replace G with F by (extensionality t; ring); replace e with d by ring end end; exact D.
Qed.
Print Assumptions C32_exp_meaning.
(** one exponential: the ladder is exp(i alpha P) up to a global phase, on
    qubits of the string only *)
Theorem C32_ladder e : ps_ok (pe_ps e) -> 
  (forall i, In i (add_pexp e) -> is_meas i = false /\ NoDup (iqubits i) /\ forall q, In q (iqubits i) -> (q < ps_dim (pe_ps e))%nat) /\
  exists c, phase c /\ forall o k psi, csem o k (add_pexp e) psi = cscale c (exp_op (pe_angle e) (ps_op (pe_ps e)) psi).
Proof.
  intros OK. pose proof (add_pexp_ok _ e OK eq_refl) as G. split; [exact G|]. destruct (add_pexp_sem e) as (c & Hc & E); [apply OK|].
  exists c. split; auto. intros o k psi. rewrite csem_gates by (intros i Hi; apply G; auto). apply E.
Qed.
Print Assumptions C32_ladder.
(** the whole DAG: the exponentials one after the other, from the last layer to
    layer 1, layer 0 (the outputs) excepted; each layer in any order *)
Definition dag_schedule (dag : pdag) (es : list pexp) : Prop :=
  exists ls, Forall2 (fun s l => NoDup l /\ forall v, In v l <-> mem v s = true) (tl (pd_layers dag)) ls /\
    Forall2 (fun v e => dget (pd_exp dag) v = Some e) (concat (rev ls)) es.
Definition dag_ok (n : nat) (dag : pdag) : Prop :=
  (forall s v, In s (tl (pd_layers dag)) -> mem v s = true -> exists e, dget (pd_exp dag) v = Some e) /\
  (forall v e, dget (pd_exp dag) v = Some e -> ps_ok (pe_ps e) /\ ps_dim (pe_ps e) = n).
Lemma dag_order_in it dag v : iter_ok it -> In v (dag_order it dag) <-> exists s, In s (tl (pd_layers dag)) /\ mem v s = true.
Proof.
  intros H. unfold dag_order. rewrite in_flat_map. split; intros (s & A & B); exists s.
  - rewrite <- in_rev in A. rewrite iter_In in B; auto.
  - rewrite <- in_rev, iter_In; auto.
Qed.
Lemma dag_ops_schedule it n dag : iter_ok it -> dag_ok n dag -> dag_schedule dag (dag_ops it dag).
Proof.
  intros H [D _]. exists (map it (tl (pd_layers dag))). split.
  - clear D. induction (tl (pd_layers dag)) as [|s l IH]; constructor; auto. split; [|intros v; apply iter_In; auto]. eapply Permutation_NoDup; [apply Permutation_sym, H|]. apply elems_NoDup.
  - rewrite <- map_rev, <- flat_map_concat_map. fold (dag_order it dag). assert (E : forall v, In v (dag_order it dag) -> exists e, dget (pd_exp dag) v = Some e).
    { intros v Hv. apply dag_order_in in Hv; auto. destruct Hv as (s & A & B). eapply D; eauto. }
    unfold dag_ops. induction (dag_order it dag) as [|v l IH]; [constructor|]. cbn [flat_map]. destruct (E v) as (e & Ee); [left; auto|]. rewrite Ee. constructor; auto. apply IH. intros u Hu. apply E. right; auto.
Qed.
Lemma dag_ops_ok it n dag : dag_ok n dag -> forall e, In e (dag_ops it dag) -> ps_ok (pe_ps e) /\ ps_dim (pe_ps e) = n.
Proof.
  intros [_ H] e He. apply in_flat_map in He. destruct He as (v & _ & He). destruct (dget (pd_exp dag) v) eqn:E; [|destruct He]. destruct He as [<-|[]]. eauto.
Qed.
Lemma dag_ladder it n dag : iter_ok it -> dag_ok n dag -> exists l, ladder_instrs it dag = Ok l /\ (forall i, In i l -> instr_ok n i) /\
  exists c, phase c /\ forall o k psi, csem o k l psi = cscale c (exps (dag_ops it dag) psi).
Proof.
  intros Hit D. pose proof (dag_ops_ok it n dag D) as OK. eexists. split.
  { apply ladder_instrs_spec. intros v Hv. apply dag_order_in in Hv; auto. destruct Hv as (s & A & B). destruct (proj1 D s v A B) as (e & ->). discriminate. }
  assert (IO : forall i, In i (concat (map add_pexp (dag_ops it dag))) -> instr_ok n i).
  { intros i Hi. apply in_concat in Hi. destruct Hi as (l & Hl & Hi). apply in_map_iff in Hl. destruct Hl as (e & <- & He). destruct (OK e He) as [A B]. apply (add_pexp_ok n e A B i Hi). }
  split; [auto|]. destruct (ladder_list (dag_ops it dag)) as (c & Hc & E); [intros e He; apply (OK e He)|]. exists c. split; auto. intros o k psi.
  rewrite csem_gates by (intros i Hi; apply IO; auto). apply E.
Qed.
Theorem C32_pass it n dag ci : iter_ok it -> dag_ok n dag -> c_width ci = n -> c_active ci = of_list (range n) ->
  exists l es, pexp_ladder_pass it dag ci = Ok (Circ n (c_instr ci ++ l) (of_list (range n))) /\ dag_schedule dag es /\
    exists c, phase c /\ forall o k psi, csem o k l psi = cscale c (exps es psi).
Proof.
  intros Hit D W A. destruct (dag_ladder it n dag Hit D) as (l & E & OK & S). exists l, (dag_ops it dag). split; [|split; [eapply dag_ops_schedule; eauto|auto]]. unfold pexp_ladder_pass. rewrite E. cbn [rbind]. apply circ_extend_ok; auto.
Qed.
Print Assumptions C32_pass.
(** er_to_circuit: a Clifford circuit realising the map, then the exponentials *)
Theorem C32_er_to_circuit it n dag cm : (0 < n)%nat -> cm_valid n cm -> iter_ok it -> dag_ok n dag -> pd_out dag = cm_out cm ->
  exists lc le es, er_to_circuit it dag cm = Ok (Circ n (lc ++ le) (of_list (range n))) /\
    (forall i, In i (lc ++ le) -> is_meas i = false /\ NoDup (iqubits i) /\ forall q, In q (iqubits i) -> (q < n)%nat) /\
    (forall o k, realises n cm (csem o k lc)) /\ dag_schedule dag es /\
    exists c, phase c /\ forall o k psi, csem o k (lc ++ le) psi = cscale c (exps es (csem o k lc psi)).
Proof.
  intros Hn V Hit D EO. destruct (berg_correct n cm Hn V) as (lc & E & OK & R). destruct (dag_ladder it n dag Hit D) as (le & E' & OK' & c & Hc & S).
  assert (L : length (pd_out dag) = n) by (rewrite EO; apply V).
  exists lc, le, (dag_ops it dag). unfold er_to_circuit. destruct (list_eq_dec Nat.eq_dec (pd_out dag) (cm_out cm)); [|congruence]. rewrite L.
  unfold cm_berg_pass. rewrite E. cbn [rbind]. rewrite (circ_extend_ok n lc OK) by auto. cbn [rbind]. unfold pexp_ladder_pass. rewrite E'. cbn [rbind].
  rewrite (circ_extend_ok n le OK') by auto. cbn [c_instr circ_new app]. split; [auto|].
  assert (O2 : forall i, In i (lc ++ le) -> instr_ok n i) by (intros i Hi; apply in_app_or in Hi; destruct Hi; auto).
  split; [exact O2|]. split; [auto|]. split; [eapply dag_ops_schedule; eauto|]. exists c. split; [auto|]. intros o k psi. rewrite (csem_gates (lc ++ le)), gates_app by (intros i Hi; apply O2; auto).
  rewrite csem_gates by (intros i Hi; apply OK; auto). rewrite <- (S o k), csem_gates by (intros i Hi; apply OK'; auto). auto.
Qed.
Print Assumptions C32_er_to_circuit.
Theorem C32_incompatible it dag cm : pd_out dag <> cm_out cm -> er_to_circuit it dag cm = Err EValue.
Proof. intros N. unfold er_to_circuit. destruct (list_eq_dec Nat.eq_dec (pd_out dag) (cm_out cm)); [congruence|auto]. Qed.
Print Assumptions C32_incompatible.
(** a node of a layer without exponential is a KeyError *)
Theorem C32_missing it dag ci s v : iter_ok it -> In s (tl (pd_layers dag)) -> mem v s = true -> dget (pd_exp dag) v = None -> pexp_ladder_pass it dag ci = Err EKey.
Proof.
  intros Hit Hs Hm N. assert (Hv : In v (dag_order it dag)) by (apply dag_order_in; eauto). unfold pexp_ladder_pass, ladder_instrs. set (F := fun node => _).
  assert (G : forall l, In v l -> rmap F l = Err EKey).
  { induction l as [|u l IH]; [intros []|]. intros [->|H]; cbn [rmap].
    - unfold F at 1. rewrite N. auto.
    - unfold F at 1. destruct (dget (pd_exp dag) u); cbn [rbind]; auto. rewrite IH; auto. }
  rewrite G; auto.
Qed.
Print Assumptions C32_missing.
(** the class documents PauliExponential as exp(i alpha/2 P); with that reading
    the emitted circuit is not the documented unitary *)
Theorem C32_docstring_refuted : exists e, ps_ok (pe_ps e) /\
  forall c, exists psi, gates (add_pexp e) psi <> cscale c (exp_op (pe_angle e / 2) (ps_op (pe_ps e)) psi).
Proof.
  exists (PExp 1 (PStr 1 [(0%nat, AX)] Plus)). split.
  { split; cbn [pe_ps ps_axes dkeys map fst ps_dim]; [apply nodup1|]. intros q [<-|[]]. auto. }
  intros c. set (psi := (fun f => if f 0%nat then C0 else C1) : state). exists psi. intros E.
  destruct (add_pexp_sem (PExp 1 (PStr 1 [(0%nat, AX)] Plus))) as (d & Hd & E'); [apply nodup1|]. rewrite E' in E. unfold pexp_op, exp_op in E. cbn [pe_angle pe_ps ps_op ps_sign ps_axes] in E.
  assert (K := f_equal (fun s => s (fun _ => false)) E). cbn beta in K.
  replace (1 * PI)%R with PI in K by ring. replace (1 / 2 * PI)%R with (PI / 2)%R in K by field. rewrite cos_PI, sin_PI, cos_PI2, sin_PI2 in K.
  unfold ps_op, axes_op, sadd_st, cscale, psi in K. cbn [fold_right fst snd axis_mat app_op ps_axes ps_sign] in K. rewrite upd_same in K. unfold mX in K. cbn in K.
  destruct c as [c1 c2], d as [d1 d2]. unfold Cadd, Cmul, RtoC, C0, C1, Ci in K. cbn in K. injection K as K1 K2. unfold phase, Cnorm2 in Hd. cbn in Hd.
  assert (d1 = 0)%R by lra. assert (d2 = 0)%R by lra. subst. lra.
Qed.
Print Assumptions C32_docstring_refuted.
(** non-vacuity: exp(i a XY) on two qubits after a CNOT *)
Example C32_instance a b : er_to_circuit elems (PDag [(0%nat, PExp a (PStr 2 [(0, AX); (1, AY)]%nat Minus)); (1%nat, PExp b (PStr 2 [(1%nat, AZ)] Plus))] [of_list [2; 3]; of_list [1]; of_list [0]]%nat [2; 3]%nat) cnot_map
  <> Err EValue /\
  dag_ok 2 (PDag [(0%nat, PExp a (PStr 2 [(0, AX); (1, AY)]%nat Minus)); (1%nat, PExp b (PStr 2 [(1%nat, AZ)] Plus))] [of_list [2; 3]; of_list [1]; of_list [0]]%nat [2; 3]%nat) /\
  dag_ops elems (PDag [(0%nat, PExp a (PStr 2 [(0, AX); (1, AY)]%nat Minus)); (1%nat, PExp b (PStr 2 [(1%nat, AZ)] Plus))] [of_list [2; 3]; of_list [1]; of_list [0]]%nat [2; 3]%nat)
   = [PExp a (PStr 2 [(0, AX); (1, AY)]%nat Minus); PExp b (PStr 2 [(1%nat, AZ)] Plus)] /\
  dag_schedule (PDag [(0%nat, PExp a (PStr 2 [(0, AX); (1, AY)]%nat Minus)); (1%nat, PExp b (PStr 2 [(1%nat, AZ)] Plus))] [of_list [2; 3]; of_list [1]; of_list [0]]%nat [2; 3]%nat)
    [PExp a (PStr 2 [(0, AX); (1, AY)]%nat Minus); PExp b (PStr 2 [(1%nat, AZ)] Plus)].
Proof.
  set (dag := PDag _ _ _). assert (D : dag_ok 2 dag).
  { split.
    - intros s v [<-|[<-|[]]] Hv; apply (proj1 (mem_of_list _ _)) in Hv; destruct Hv as [<-|[]]; eexists; reflexivity.
    - intros v e E. cbn in E. destruct v as [|[|v]]; cbn in E; try discriminate; injection E as <-; (split; [|auto]); (split; cbn; [repeat constructor; simpl; intuition discriminate|simpl; intros; lia]). }
  split; [|split; [exact D|split; [reflexivity|apply (dag_ops_schedule elems 2); auto using iter_elems]]].
  destruct (C32_er_to_circuit elems 2 dag cnot_map) as (lc & le & es & -> & _); auto using C31_instance, iter_elems. discriminate.
Qed.
