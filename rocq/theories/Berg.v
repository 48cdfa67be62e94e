(** Model of graphix/circ_ext/extraction.py CliffordMap.to_tableau and of
    graphix/circ_ext/compilation.py cm_berg_pass (Clifford synthesis). *)
From Coq Require Import Reals Lra Arith List Bool Lia Permutation FunctionalExtensionality Sorting.Sorted.
From Verif Require Import Cplx Mat2 NSet QState Fundamentals Clifford Measure Pattern Statevec Density Circuit Swaps Flow PauliStr PauliOp.
Import ListNotations.
Local Open Scope list_scope.

(** extraction.py:394-508 CliffordMap *)
Record cmap := CMap { cm_x : list pstring; cm_z : list pstring; cm_in : list nat; cm_out : list nat }.
(** a tableau: the list of its rows *)
Definition tableau := list (list bool).
(** numpy.vstack: at least one array, all of one length *)
Definition vstack (l : tableau) : res tableau :=
  match l with [] => Err EValue | r :: l' => if forallb (fun r' => (length r' =? length r)%nat) l' then Ok l else Err EValue end.
(** extraction.py:474-508 CliffordMap.to_tableau *)
Definition cm_tableau (cm : cmap) : res tableau :=
  if (length (cm_in cm) =? length (cm_out cm))%nat then do rs <- rmap to_tableau (cm_x cm ++ cm_z cm); vstack rs else Err ENotImplemented.

(** entry (i, j) *)
Definition tent (t : tableau) (i j : nat) : bool := nth j (nth i t []) false.
(** compilation.py:295-299 add_h, on one row: the sign column is the last one, 2n *)
Definition row_h (n q : nat) (r : list bool) : list bool :=
  let x := nth q r false in let z := nth (q + n) r false in
  lset (lset (lset r (2 * n) (xorb (nth (2 * n) r false) (x && z))) q z) (q + n) x.
(** compilation.py:301-305 add_s, on one row *)
Definition row_s (n q : nat) (r : list bool) : list bool :=
  let x := nth q r false in let z := nth (q + n) r false in
  lset (lset r (2 * n) (xorb (nth (2 * n) r false) (x && z))) (q + n) (xorb z x).
(** compilation.py:307-311 add_cnot, on one row *)
Definition row_cnot (n c t : nat) (r : list bool) : list bool :=
  let xc := nth c r false in let zc := nth (c + n) r false in
  let xt := nth t r false in let zt := nth (t + n) r false in
  lset (lset (lset r (2 * n) (xorb (nth (2 * n) r false) (xc && zt && (xorb (xorb xt zc) true)))) t (xorb xt xc)) (c + n) (xorb zc zt).
(** compilation.py:313-317 add_swap, on one row *)
Definition row_swap (n a b : nat) (r : list bool) : list bool :=
  lset (lset (lset (lset r a (nth b r false)) b (nth a r false)) (a + n) (nth (b + n) r false)) (b + n) (nth (a + n) r false).
(** the tableau and the instructions accumulated so far *)
Definition bst := (tableau * list instr)%type.
Definition add_h (n q : nat) (st : bst) : bst := (map (row_h n q) (fst st), snd st ++ [IH q]).
Definition add_s (n q : nat) (st : bst) : bst := (map (row_s n q) (fst st), snd st ++ [IS q; IZ q]).
Definition add_cnot (n c t : nat) (st : bst) : bst := (map (row_cnot n c t) (fst st), snd st ++ [ICNOT t c]).
Definition add_swap (n a b : nat) (st : bst) : bst := (map (row_swap n a b) (fst st), snd st ++ [ISWAP a b]).
(** numpy.flatnonzero of a row slice [off, off + len) *)
Definition flatnonzero (r : list bool) (off len : nat) : list nat := filter (fun j => nth (off + j) r false) (range len).
(** compilation.py:279-283 do_step_1: the columns are read before the loop *)
Definition do_step_1 (n row : nat) (st : bst) : bst :=
  fold_left (fun st j => if tent (fst st) row j then add_s n j st else add_h n j st) (flatnonzero (nth row (fst st) []) n n) st.
(** l[::2] *)
Fixpoint evens (l : list nat) : list nat := match l with a :: _ :: l' => a :: evens l' | _ => l end.
(** compilation.py:288-290: one CNOT per consecutive pair *)
Fixpoint cnot_pairs (n : nat) (l : list nat) (st : bst) : bst :=
  match l with a :: b :: l' => cnot_pairs n l' (add_cnot n a b st) | _ => st end.
(** compilation.py:285-293 do_step_2; [fuel] bounds the while loop, the length
    of the list is enough (see [step2_spec]).  An empty row is an IndexError. *)
Fixpoint step2_loop (fuel n : nat) (cols : list nat) (st : bst) : res (nat * bst) :=
  match cols with
  | [] => Err EIndex
  | [p] => Ok (p, st)
  | _ => match fuel with O => Err ERuntime | S k => step2_loop k n (evens cols) (cnot_pairs n cols st) end
  end.
Definition do_step_2 (n row : nat) (st : bst) : res (nat * bst) :=
  let cols := flatnonzero (nth row (fst st) []) 0 n in step2_loop (length cols) n cols st.
(** compilation.py:254-277 process_qubit *)
Definition process_qubit (n : nat) (st : bst) (q : nat) : res bst :=
  let st := do_step_1 n q st in
  do (pivot, st) <- do_step_2 n q st;
  let st := if (pivot =? q)%nat then st else add_swap n q pivot st in
  match flatnonzero (nth (q + n) (fst st) []) 0 (2 * n) with
  | [c] => if (c =? q + n)%nat then Ok st else
      let st := do_step_1 n (q + n) (add_h n q st) in
      do (pivot, st) <- do_step_2 n (q + n) st;
      if (pivot =? q)%nat then Ok (add_h n q st) else Err EAssert
  | _ =>
      let st := do_step_1 n (q + n) (add_h n q st) in
      do (pivot, st) <- do_step_2 n (q + n) st;
      if (pivot =? q)%nat then Ok (add_h n q st) else Err EAssert
  end.
(** compilation.py:319-329 correct_signs *)
Definition sign_instr (t : tableau) (n q : nat) : list instr :=
  match tent t q (2 * n), tent t (q + n) (2 * n) with
  | false, true => [IX q] | true, true => [IY q] | true, false => [IZ q] | false, false => []
  end.
Definition correct_signs (n : nat) (st : bst) : bst := (fst st, snd st ++ flat_map (sign_instr (fst st) n) (range n)).
(** compilation.py:179-340 cm_berg_pass: the instruction list, reversed.  The
    second test on the number of nodes repeats that of [cm_tableau]. *)
Definition berg_instrs (cm : cmap) : res (list instr) :=
  do tab <- cm_tableau cm;
  let n := length (cm_out cm) in
  do st <- rfold (process_qubit n) (range n) (tab, []);
  Ok (rev (snd (correct_signs n st))).
Definition cm_berg_pass (cm : cmap) (c : circuit) : res circuit := do l <- berg_instrs cm; circ_extend c l.

(** * Specification *)
Definition commute (P Q : state -> state) : Prop := forall psi, P (Q psi) = Q (P psi).
Definition anticommute (P Q : state -> state) : Prop := forall psi, P (Q psi) = cscale (- C1) (Q (P psi)).
Definition ps0 : pstring := PStr 0 [] Plus.
(** the images of X_i and Z_i are Pauli strings on n qubits with the
    commutation relations of the X_i and Z_i *)
Definition cm_valid (n : nat) (cm : cmap) : Prop :=
  length (cm_x cm) = n /\ length (cm_z cm) = n /\ length (cm_in cm) = n /\ length (cm_out cm) = n /\
  (forall p, In p (cm_x cm ++ cm_z cm) -> ps_ok p /\ ps_dim p = n) /\
  forall i j, (i < n)%nat -> (j < n)%nat ->
    commute (ps_op (nth i (cm_x cm) ps0)) (ps_op (nth j (cm_x cm) ps0)) /\
    commute (ps_op (nth i (cm_z cm) ps0)) (ps_op (nth j (cm_z cm) ps0)) /\
    (if (i =? j)%nat then anticommute else commute) (ps_op (nth i (cm_x cm) ps0)) (ps_op (nth j (cm_z cm) ps0)).
(** the circuit maps the generators to the given strings under conjugation *)
Definition realises (n : nat) (cm : cmap) (C : state -> state) : Prop :=
  forall i, (i < n)%nat -> forall psi,
    C (app_op (OApp1 mX i) psi) = ps_op (nth i (cm_x cm) ps0) (C psi) /\
    C (app_op (OApp1 mZ i) psi) = ps_op (nth i (cm_z cm) ps0) (C psi).

(** * Rows and steps *)
Section Berg.
Variable n : nat.
Definition rx (r : list bool) (q : nat) : bool := nth q r false.
Definition rz (r : list bool) (q : nat) : bool := nth (q + n) r false.
Definition rs (r : list bool) : bool := nth (2 * n) r false.
(** the signed Pauli operator of a row *)
Definition rop (r : list bool) : state -> state := sgnop (rs r) (pprod (range n) (rx r) (rz r)).
Inductive tstep := TH (q : nat) | TS (q : nat) | TC (c t : nat) | TW (a b : nat).
Definition tcols (g : tstep) : list nat := match g with TH q | TS q => [q] | TC c t => [c; t] | TW a b => [a; b] end.
Definition trow (g : tstep) : list bool -> list bool :=
  match g with TH q => row_h n q | TS q => row_s n q | TC c t => row_cnot n c t | TW a b => row_swap n a b end.
Definition tins (g : tstep) : list instr :=
  match g with TH q => [IH q] | TS q => [IS q; IZ q] | TC c t => [ICNOT t c] | TW a b => [ISWAP a b] end.
Definition tadd (st : bst) (g : tstep) : bst := (map (trow g) (fst st), snd st ++ tins g).
Definition tok (g : tstep) : Prop := NoDup (tcols g) /\ forall q, In q (tcols g) -> (q < n)%nat.
Definition run (gs : list tstep) (st : bst) : bst := fold_left tadd gs st.
(** new bits *)
Definition tx (g : tstep) (x z : nat -> bool) (p : nat) : bool :=
  match g with
  | TH q => if (p =? q)%nat then z q else x p
  | TS q => x p
  | TC c t => if (p =? t)%nat then xorb (x t) (x c) else x p
  | TW a b => if (p =? a)%nat then x b else if (p =? b)%nat then x a else x p
  end.
Definition tz (g : tstep) (x z : nat -> bool) (p : nat) : bool :=
  match g with
  | TH q => if (p =? q)%nat then x q else z p
  | TS q => if (p =? q)%nat then xorb (z q) (x q) else z p
  | TC c t => if (p =? c)%nat then xorb (z c) (z t) else z p
  | TW a b => if (p =? a)%nat then z b else if (p =? b)%nat then z a else z p
  end.
Definition tsg (g : tstep) (x z : nat -> bool) : bool :=
  match g with
  | TH q | TS q => x q && z q
  | TC c t => x c && z t && negb (xorb (x t) (z c))
  | TW a b => false
  end.
Definition rlen (r : list bool) : Prop := length r = (2 * n + 1)%nat.
Lemma trow_len g r : length (trow g r) = length r.
Proof. destruct g; simpl; unfold row_h, row_s, row_cnot, row_swap; rewrite ?lset_len; auto. Qed.
Lemma trow_bits g r : tok g -> rlen r ->
  (forall p, (p < n)%nat -> rx (trow g r) p = tx g (rx r) (rz r) p) /\
  (forall p, (p < n)%nat -> rz (trow g r) p = tz g (rx r) (rz r) p) /\
  rs (trow g r) = xorb (rs r) (tsg g (rx r) (rz r)).
Proof.
  intros [ND LT] L. unfold rlen in L.
  assert (LS : forall l i b j, length l = (2 * n + 1)%nat -> (i < 2 * n + 1)%nat -> nth j (lset l i b) false = if (j =? i)%nat then b else nth j l false).
  { intros l i b j Hl Hi. rewrite lset_nth, Hl. apply Nat.ltb_lt in Hi. rewrite Hi, andb_true_r. auto. }
  destruct g as [q|q|c t|a b]; cbn [tcols] in *; cbn [trow tx tz tsg].
  1, 2: assert (q < n)%nat by (apply LT; simpl; auto).
  3: assert (c < n)%nat by (apply LT; simpl; auto); assert (t < n)%nat by (apply LT; simpl; auto); assert (c <> t) by (apply nd2 in ND; tauto).
  4: assert (a < n)%nat by (apply LT; simpl; auto); assert (b < n)%nat by (apply LT; simpl; auto); assert (a <> b) by (apply nd2 in ND; tauto).
  all: unfold rx, rz, rs, row_h, row_s, row_cnot, row_swap; (split; [|split]); intros; rewrite ?LS by (rewrite ?lset_len; auto; lia);
    repeat match goal with |- context [(?u =? ?v)%nat] => destruct (Nat.eqb_spec u v); try lia; subst end; auto;
    rewrite ?xorb_false_r, ?xorb_true_r; auto.
Qed.
(** ** Conjugation *)
Definition tgate (g : tstep) (psi : state) : state :=
  match g with TH q => gate (IH q) psi | TS q => gate (IS q) psi | TC c t => gate (ICNOT t c) psi | TW a b => gate (ISWAP a b) psi end.
Definition gates (l : list instr) (psi : state) : state := fold_left (fun p i => gate i p) l psi.
Definition tinv (g : tstep) (psi : state) : state := gates (rev (tins g)) psi.
Lemma in_range q : (q < n)%nat -> In q (range n).
Proof. intros. unfold range. apply in_seq. lia. Qed.
Lemma sgnop_scale s c F psi : (forall c psi, F (cscale c psi) = cscale c (F psi)) -> sgnop s F (cscale c psi) = cscale c (sgnop s F psi).
Proof. intros H. unfold sgnop. rewrite H, !cscale_cscale. f_equal. ring. Qed.
Lemma rop_scale r c psi : rop r (cscale c psi) = cscale c (rop r psi).
Proof. apply sgnop_scale. intros. apply pprod_scale. Qed.
Lemma step_conj g r psi : tok g -> rlen r -> tgate g (rop r psi) = rop (trow g r) (tgate g psi).
Proof.
  intros OK L. destruct (trow_bits g r OK L) as (BX & BZ & BS). destruct OK as [ND LT].
  assert (NR : NoDup (range n)) by apply seq_NoDup.
  assert (RI : forall p, In p (range n) -> (p < n)%nat) by (intros p Hp; apply in_seq in Hp; lia).
  unfold rop, sgnop. rewrite BS, sgn_xor, <- cscale_cscale.
  destruct g as [q|q|c t|a b]; cbn [tcols tgate tx tz tsg] in *; rewrite gate_scale; f_equal.
  - assert (Q : (q < n)%nat) by (apply LT; simpl; auto). cbn [gate]. apply conj1_pauli; auto.
    + apply in_range; auto.
    + rewrite BX, BZ, Nat.eqb_refl by auto. apply H_conj.
    + intros p Hp N. rewrite BX, BZ by auto. apply Nat.eqb_neq in N. rewrite N. auto.
  - assert (Q : (q < n)%nat) by (apply LT; simpl; auto). cbn [gate]. apply conj1_pauli; auto.
    + apply in_range; auto.
    + rewrite BX, BZ, Nat.eqb_refl by auto. apply S_conj.
    + intros p Hp N. rewrite BX, BZ by auto. apply Nat.eqb_neq in N. rewrite N. auto.
  - assert (Qc : (c < n)%nat) by (apply LT; simpl; auto). assert (Qt : (t < n)%nat) by (apply LT; simpl; auto). apply nd2 in ND. destruct ND as [N1 N2].
    apply cnot_pprod; auto using in_range; rewrite ?BX, ?BZ, ?Nat.eqb_refl by auto; auto.
    + apply Nat.eqb_neq in N1. rewrite N1. auto.
    + apply Nat.eqb_neq in N2. rewrite N2. auto.
    + intros p Hp P1 P2. rewrite BX, BZ by auto. apply Nat.eqb_neq in P1, P2. rewrite P1, P2. auto.
  - assert (Qa : (a < n)%nat) by (apply LT; simpl; auto). assert (Qb : (b < n)%nat) by (apply LT; simpl; auto). apply nd2 in ND. destruct ND as [N1 N2].
    cbn [sgn]. rewrite cscale_1. apply swap_pprod; auto using in_range; rewrite ?BX, ?BZ, ?Nat.eqb_refl by auto; auto.
    1, 2: apply Nat.eqb_neq in N2; rewrite N2; auto.
    intros p Hp P1 P2. rewrite BX, BZ by auto. apply Nat.eqb_neq in P1, P2. rewrite P1, P2. auto.
Qed.
Lemma app1_inv A B q psi : mmul A B = mid -> app_op (OApp1 A q) (app_op (OApp1 B q) psi) = psi.
Proof. intros H. rewrite app1_app1, H. apply app1_mid. Qed.
Lemma cnot_cnot t c psi : c <> t -> gate (ICNOT t c) (gate (ICNOT t c) psi) = psi.
Proof.
  intros N. extensionality f. rewrite !cnot_spec by auto. rewrite upd_same, upd_other, upd_upd by auto. 
  replace (xorb (xorb (f t) (f c)) (f c)) with (f t) by (destruct (f t), (f c); auto). rewrite upd_id. auto.
Qed.
Lemma swap_swap u v psi : u <> v -> gate (ISWAP u v) (gate (ISWAP u v) psi) = psi.
Proof. intros N. extensionality f. rewrite (V2_f u v f). cbn [gate]. rewrite !V2_swap by auto. auto. Qed.
Lemma szs : mmul (mmul op_s op_s) mZ = mid.
Proof. pose proof Ci_sq as E. unfold op_s, mZ, mid; simpl; meq; ring [E]. Qed.
Lemma szs' : mmul (mmul op_s mZ) op_s = mid.
Proof. pose proof Ci_sq as E. unfold op_s, mZ, mid; simpl; meq; ring [E]. Qed.
Lemma tgate_tinv g psi : tok g -> tgate g (tinv g psi) = psi.
Proof.
  intros [ND _]. destruct g; cbn [tcols] in ND; unfold tinv, gates; cbn [tins rev app fold_left tgate].
  - apply h_h.
  - cbn [gate]. rewrite !app1_app1, szs. apply app1_mid.
  - apply nd2 in ND. apply cnot_cnot. tauto.
  - apply nd2 in ND. apply swap_swap. tauto.
Qed.
Lemma tinv_tgate g psi : tok g -> tinv g (tgate g psi) = psi.
Proof.
  intros [ND _]. destruct g; cbn [tcols] in ND; unfold tinv, gates; cbn [tins rev app fold_left tgate].
  - apply h_h.
  - cbn [gate]. rewrite !app1_app1, szs'. apply app1_mid.
  - apply nd2 in ND. apply cnot_cnot. tauto.
  - apply nd2 in ND. apply swap_swap. tauto.
Qed.
Lemma step_inv_conj g r psi : tok g -> rlen r -> tinv g (rop (trow g r) psi) = rop r (tinv g psi).
Proof.
  intros OK L. rewrite <- (tgate_tinv g psi OK) at 1. rewrite <- step_conj by auto. apply tinv_tgate; auto.
Qed.
Lemma gates_app a b psi : gates (a ++ b) psi = gates b (gates a psi).
Proof. apply fold_left_app. Qed.

(** ** Invariant of the forward pass *)
Variable tab0 : tableau.
Record binv (st : bst) : Prop := {
  bi_len : length (fst st) = (2 * n)%nat;
  bi_row : forall i, (i < 2 * n)%nat -> rlen (nth i (fst st) []);
  bi_conj : forall i psi, (i < 2 * n)%nat -> gates (rev (snd st)) (rop (nth i (fst st) []) psi) = rop (nth i tab0 []) (gates (rev (snd st)) psi);
  bi_inj : forall psi phi, gates (rev (snd st)) psi = gates (rev (snd st)) phi -> psi = phi;
  bi_ok : forall i, In i (snd st) -> is_meas i = false /\ NoDup (iqubits i) /\ forall q, In q (iqubits i) -> (q < n)%nat
}.
Lemma nth_map_row g (t : tableau) i : (i < length t)%nat -> nth i (map (trow g) t) [] = trow g (nth i t []).
Proof. intros H. rewrite (nth_indep _ [] (trow g [])) by (rewrite map_length; auto). apply map_nth. Qed.
Lemma bi_lt st i : binv st -> (i < 2 * n)%nat -> (i < length (fst st))%nat.
Proof. intros I H. pose proof (bi_len _ I) as E. change (i < length (fst st))%nat. rewrite E. auto. Qed.
Lemma gates_scale l : forall c psi, gates l (cscale c psi) = cscale c (gates l psi).
Proof. induction l as [|i l IH]; intros c psi; auto. unfold gates in *. cbn [fold_left]. rewrite gate_scale. apply IH. Qed.
Lemma binv_tadd st g : tok g -> binv st -> binv (tadd st g).
Proof.
  intros OK [H1 H2 H3 H4 H5]. unfold tadd. constructor; cbn [fst snd].
  - rewrite map_length. auto.
  - intros i Hi. unfold rlen. rewrite nth_map_row by lia. rewrite trow_len. apply H2; auto.
  - intros i psi Hi. rewrite nth_map_row, rev_app_distr, !gates_app by lia. fold (tinv g psi). 
    change (gates (rev (tins g)) (rop (trow g (nth i (fst st) [])) psi)) with (tinv g (rop (trow g (nth i (fst st) [])) psi)).
    rewrite step_inv_conj by auto. apply H3; auto.
  - intros psi phi. rewrite rev_app_distr, !gates_app. intros E. apply H4 in E. fold (tinv g psi) in E. fold (tinv g phi) in E.
    rewrite <- (tgate_tinv g psi OK), <- (tgate_tinv g phi OK). f_equal. auto.
  - intros i Hi. apply in_app_iff in Hi. destruct Hi as [Hi|Hi]; [apply H5; auto|]. destruct OK as [ND LT].
    destruct g; cbn [tins tcols] in *; simpl in Hi.
    + destruct Hi as [<-|[]]. cbn. split; auto.
    + destruct Hi as [<-|[<-|[]]]; cbn; split; auto.
    + destruct Hi as [<-|[]]. cbn [is_meas iqubits]. split; auto. apply nd2 in ND. split; [apply nodup2; tauto|]. intros q [<-|[<-|[]]]; apply LT; simpl; auto.
    + destruct Hi as [<-|[]]. cbn [is_meas iqubits]. split; auto.
Qed.
Lemma binv_run gs : forall st, Forall tok gs -> binv st -> binv (run gs st).
Proof. induction gs as [|g gs IH]; intros st F I; auto. inversion F; subst. apply (IH (tadd st g)); auto. apply binv_tadd; auto. Qed.
Lemma run_app a b st : run (a ++ b) st = run b (run a st).
Proof. apply fold_left_app. Qed.
Lemma run_row gs : forall st i, (i < length (fst st))%nat -> nth i (fst (run gs st)) [] = fold_left (fun r g => trow g r) gs (nth i (fst st) []) /\ length (fst (run gs st)) = length (fst st).
Proof.
  induction gs as [|g gs IH]; intros st i Hi; [auto|]. cbn [run fold_left]. destruct (IH (tadd st g) i) as [A B].
  - unfold tadd. cbn [fst]. rewrite map_length. auto.
  - fold (run gs (tadd st g)). rewrite A, B. unfold tadd. cbn [fst]. rewrite map_length, nth_map_row; auto.
Qed.

(** ** Shapes of rows *)
Definition isX (q : nat) (r : list bool) : Prop := forall p, (p < n)%nat -> rx r p = (p =? q)%nat /\ rz r p = false.
Definition isZ (q : nat) (r : list bool) : Prop := forall p, (p < n)%nat -> rx r p = false /\ rz r p = (p =? q)%nat.
Definition untouched (q : nat) (g : tstep) : Prop := ~ In q (tcols g).
Definition zpres (q : nat) (g : tstep) : Prop := match g with TH j => j <> q | TS _ => True | TC c t => t <> q | TW a b => a <> q /\ b <> q end.
Lemma untouched_zpres q g : untouched q g -> zpres q g.
Proof. unfold untouched, zpres. destruct g; simpl; intuition. Qed.
Lemma isX_step q g r : tok g -> rlen r -> untouched q g -> isX q r -> isX q (trow g r).
Proof.
  intros OK L U HX p Hp. destruct (trow_bits g r OK L) as (BX & BZ & _). rewrite BX, BZ by auto. destruct OK as [ND LT]. unfold untouched in U.
  assert (HT : forall j, In j (tcols g) -> rx r j = false /\ rz r j = false).
  { intros j Hj. destruct (HX j (LT j Hj)) as [-> ->]. split; auto. apply Nat.eqb_neq. intros ->. auto. }
  destruct (HX p Hp) as [X1 X2].
  destruct g as [j|j|c t|a b]; cbn [tcols tx tz] in *.
  1, 2: destruct (HT j) as [E1 E2]; [simpl; auto|]; destruct (Nat.eqb_spec p j); [subst|]; rewrite ?E1, ?E2, ?xorb_false_r; auto; split; auto; symmetry; apply Nat.eqb_neq; intros ->; apply U; simpl; auto.
  1: destruct (HT c) as [E1 E2]; [simpl; auto|]; destruct (HT t) as [E3 E4]; [simpl; auto|].
  2: destruct (HT a) as [E1 E2]; [simpl; auto|]; destruct (HT b) as [E3 E4]; [simpl; auto|].
  all: split; repeat match goal with |- context [if (?u =? ?v)%nat then _ else _] => destruct (Nat.eqb_spec u v); subst end; rewrite ?E1, ?E2, ?E3, ?E4; simpl; auto; try congruence; try (symmetry; apply Nat.eqb_neq; intros ->; apply U; simpl; auto).
Qed.
Lemma isZ_step q g r : tok g -> rlen r -> zpres q g -> isZ q r -> isZ q (trow g r).
Proof.
  intros OK L U HZ p Hp. destruct (trow_bits g r OK L) as (BX & BZ & _). rewrite BX, BZ by auto. destruct OK as [ND LT].
  destruct (HZ p Hp) as [X1 X2].
  destruct g as [j|j|c t|a b]; cbn [tcols tx tz zpres] in *.
  - destruct (HZ j) as [E1 E2]; [apply LT; simpl; auto|]. destruct (Nat.eqb_spec p j); [subst|auto]. rewrite E1, E2. split; auto. apply Nat.eqb_neq; auto. symmetry. apply Nat.eqb_neq; auto.
  - destruct (HZ j) as [E1 E2]; [apply LT; simpl; auto|]. destruct (Nat.eqb_spec p j); [subst|auto]. rewrite E1, E2, xorb_false_r. auto.
  - destruct (HZ c) as [E1 E2]; [apply LT; simpl; auto|]. destruct (HZ t) as [E3 E4]; [apply LT; simpl; auto|].
    assert (Et : (t =? q)%nat = false) by (apply Nat.eqb_neq; auto). rewrite Et in E4.
    split; [destruct (Nat.eqb_spec p t)|destruct (Nat.eqb_spec p c)]; subst; rewrite ?E1, ?E2, ?E3, ?E4, ?xorb_false_r; auto.
  - destruct U as [U1 U2]. destruct (HZ a) as [E1 E2]; [apply LT; simpl; auto|]. destruct (HZ b) as [E3 E4]; [apply LT; simpl; auto|].
    apply Nat.eqb_neq in U1, U2. rewrite U1 in E2. rewrite U2 in E4.
    split; destruct (Nat.eqb_spec p a); [| destruct (Nat.eqb_spec p b)| |destruct (Nat.eqb_spec p b)]; subst; rewrite ?E1, ?E2, ?E3, ?E4; auto.
Qed.
Lemma isX_run q gs : forall r, Forall tok gs -> rlen r -> Forall (untouched q) gs -> isX q r -> isX q (fold_left (fun r g => trow g r) gs r).
Proof.
  induction gs as [|g gs IH]; intros r F L U H; auto. inversion F; inversion U; subst. cbn [fold_left]. apply IH; auto.
  - unfold rlen. rewrite trow_len. auto.
  - apply isX_step; auto.
Qed.
Lemma isZ_run q gs : forall r, Forall tok gs -> rlen r -> Forall (zpres q) gs -> isZ q r -> isZ q (fold_left (fun r g => trow g r) gs r).
Proof.
  induction gs as [|g gs IH]; intros r F L U H; auto. inversion F; inversion U; subst. cbn [fold_left]. apply IH; auto.
  - unfold rlen. rewrite trow_len. auto.
  - apply isZ_step; auto.
Qed.
(** ** Commutation *)
Lemma pprod_sq l x z psi : NoDup l -> pprod l x z (pprod l x z psi) = psi.
Proof.
  intros ND. induction l as [|q l IH]; auto. inversion ND; subst. cbn [pprod fold_right]. fold (pprod l x z psi).
  fold (pprod l x z (app_op (OApp1 (pm (x q) (z q)) q) (pprod l x z psi))). rewrite pprod_app1 by auto. rewrite IH by auto. apply app1_inv, pm_sq.
Qed.
Lemma rop_sq r psi : rop r (rop r psi) = psi.
Proof.
  unfold rop, sgnop. rewrite pprod_scale, pprod_sq by apply seq_NoDup. rewrite cscale_cscale, sgn_sq. apply cscale_1.
Qed.
Definition one : state := fun _ => C1.
Lemma rop_neq r r' : cscale (- C1) (rop r (rop r' one)) <> rop r (rop r' one).
Proof.
  intros E. assert (E2 : rop r' (rop r (cscale (- C1) (rop r (rop r' one)))) = rop r' (rop r (rop r (rop r' one)))) by (rewrite E; auto).
  rewrite !rop_scale, !rop_sq in E2. apply (f_equal (fun f => f (fun _ => false))) in E2. unfold cscale, one in E2.
  apply (f_equal re) in E2. cbn in E2. lra.
Qed.
Lemma isX_rop i r psi : (i < n)%nat -> isX i r -> rop r psi = cscale (sgn (rs r)) (app_op (OApp1 mX i) psi).
Proof.
  intros Hi HX. unfold rop, sgnop. f_equal. destruct (HX i Hi) as [E1 E2]. rewrite Nat.eqb_refl in E1.
  rewrite (pprod_one _ _ _ i); [rewrite E1, E2; auto|apply seq_NoDup|apply in_range; auto|].
  intros p Hp N. apply in_seq in Hp. destruct (HX p) as [F1 F2]; [lia|]. apply Nat.eqb_neq in N. rewrite N in F1. auto.
Qed.
Lemma isZ_rop i r psi : (i < n)%nat -> isZ i r -> rop r psi = cscale (sgn (rs r)) (app_op (OApp1 mZ i) psi).
Proof.
  intros Hi HX. unfold rop, sgnop. f_equal. destruct (HX i Hi) as [E1 E2]. rewrite Nat.eqb_refl in E2.
  rewrite (pprod_one _ _ _ i); [rewrite E1, E2; auto|apply seq_NoDup|apply in_range; auto|].
  intros p Hp N. apply in_seq in Hp. destruct (HX p) as [F1 F2]; [lia|]. apply Nat.eqb_neq in N. rewrite N in F2. auto.
Qed.
Lemma rop_X i r psi : (i < n)%nat -> app_op (OApp1 mX i) (rop r psi) = cscale (sgn (rz r i)) (rop r (app_op (OApp1 mX i) psi)).
Proof.
  intros Hi. unfold rop, sgnop. rewrite app_op_scale. rewrite (conj1_pauli mX i (range n) (rx r) (rz r) (rx r) (rz r) (rz r i)); auto using in_range, seq_NoDup.
  - rewrite !cscale_cscale. f_equal. ring.
  - apply seq_NoDup.
  - apply X_conj.
Qed.
Lemma rop_Z i r psi : (i < n)%nat -> app_op (OApp1 mZ i) (rop r psi) = cscale (sgn (rx r i)) (rop r (app_op (OApp1 mZ i) psi)).
Proof.
  intros Hi. unfold rop, sgnop. rewrite app_op_scale. rewrite (conj1_pauli mZ i (range n) (rx r) (rz r) (rx r) (rz r) (rx r i)); auto using in_range, seq_NoDup.
  - rewrite !cscale_cscale. f_equal. ring.
  - apply seq_NoDup.
  - apply Z_conj.
Qed.
Lemma isX_comm i r r' psi : (i < n)%nat -> isX i r -> rop r (rop r' psi) = cscale (sgn (rz r' i)) (rop r' (rop r psi)).
Proof. intros Hi HX. rewrite !(isX_rop i r) by auto. rewrite rop_X, rop_scale by auto. rewrite !cscale_cscale. f_equal. ring. Qed.
Lemma isZ_comm i r r' psi : (i < n)%nat -> isZ i r -> rop r (rop r' psi) = cscale (sgn (rx r' i)) (rop r' (rop r psi)).
Proof. intros Hi HX. rewrite !(isZ_rop i r) by auto. rewrite rop_Z, rop_scale by auto. rewrite !cscale_cscale. f_equal. ring. Qed.
Definition rel (i j : nat) : bool := ((i + n =? j) || (j + n =? i))%nat.
Definition crel (t : tableau) : Prop := forall i j, (i < 2 * n)%nat -> (j < 2 * n)%nat -> forall psi,
  rop (nth i t []) (rop (nth j t []) psi) = cscale (sgn (rel i j)) (rop (nth j t []) (rop (nth i t []) psi)).
Hypothesis crel0 : crel tab0.
Lemma binv_crel st : binv st -> crel (fst st).
Proof.
  intros I i j Hi Hj psi. apply (bi_inj _ I). rewrite gates_scale. rewrite !(bi_conj _ I) by auto. apply crel0; auto.
Qed.
Lemma isX_bit st i j : binv st -> (i < n)%nat -> (i < 2 * n)%nat -> (j < 2 * n)%nat -> forall k, (k < 2 * n)%nat -> isX i (nth k (fst st) []) -> rz (nth j (fst st) []) i = rel k j.
Proof.
  intros I Hi _ Hj k Hk HX. pose proof (binv_crel st I k j Hk Hj one) as E. rewrite (isX_comm i) in E by auto.
  pose proof (rop_neq (nth j (fst st) []) (nth k (fst st) [])) as N.
  destruct (rz (nth j (fst st) []) i), (rel k j); auto; cbn [sgn] in E; rewrite cscale_1 in E; congruence.
Qed.
Lemma isZ_bit st i j : binv st -> (i < n)%nat -> (i < 2 * n)%nat -> (j < 2 * n)%nat -> forall k, (k < 2 * n)%nat -> isZ i (nth k (fst st) []) -> rx (nth j (fst st) []) i = rel k j.
Proof.
  intros I Hi _ Hj k Hk HX. pose proof (binv_crel st I k j Hk Hj one) as E. rewrite (isZ_comm i) in E by auto.
  pose proof (rop_neq (nth j (fst st) []) (nth k (fst st) [])) as N.
  destruct (rx (nth j (fst st) []) i), (rel k j); auto; cbn [sgn] in E; rewrite cscale_1 in E; congruence.
Qed.
Lemma row_nonzero st i : binv st -> (i < 2 * n)%nat -> exists p, (p < n)%nat /\ (rx (nth i (fst st) []) p || rz (nth i (fst st) []) p = true).
Proof.
  intros I Hi. destruct (existsb (fun p => rx (nth i (fst st) []) p || rz (nth i (fst st) []) p) (range n)) eqn:E.
  - apply existsb_exists in E. destruct E as (p & A & B). apply in_seq in A. exists p. split; auto. lia.
  - exfalso. assert (Z : forall psi, rop (nth i (fst st) []) psi = cscale (sgn (rs (nth i (fst st) []))) psi).
    { intros psi. unfold rop, sgnop. f_equal. apply pprod_id. intros q Hq.
      assert (rx (nth i (fst st) []) q || rz (nth i (fst st) []) q = false) as F.
      { destruct (_ || _) eqn:E2; auto. rewrite <- E. symmetry. apply existsb_exists. exists q. auto. }
      apply orb_false_iff in F. auto. }
    set (j := if (i <? n)%nat then (i + n)%nat else (i - n)%nat).
    assert (Hj : (j < 2 * n)%nat) by (unfold j; destruct (Nat.ltb_spec i n); lia).
    assert (R : rel i j = true). { unfold rel, j. destruct (Nat.ltb_spec i n); [rewrite Nat.eqb_refl; auto|]. apply orb_true_iff. right. apply Nat.eqb_eq. lia. }
    pose proof (binv_crel st I i j Hi Hj one) as K. rewrite R in K.
    pose proof (rop_neq (nth j (fst st) []) (nth i (fst st) [])) as N. cbn [sgn] in K. rewrite <- K in N. apply N. rewrite !Z, rop_scale. auto.
Qed.

(** ** The steps *)
Lemma flatnonzero_In r off len j : In j (flatnonzero r off len) <-> (j < len)%nat /\ nth (off + j) r false = true.
Proof. unfold flatnonzero. rewrite filter_In. unfold range. rewrite in_seq. intuition lia. Qed.
Lemma flatnonzero_nodup r off len : NoDup (flatnonzero r off len).
Proof. apply NoDup_filter, seq_NoDup. Qed.
Definition colbit (st : bst) (row : nat) (p : nat) : bool * bool := (rx (nth row (fst st) []) p, rz (nth row (fst st) []) p).
Lemma tadd_row st g row : binv st -> tok g -> (row < 2 * n)%nat -> forall p, (p < n)%nat ->
  rx (nth row (fst (tadd st g)) []) p = tx g (rx (nth row (fst st) [])) (rz (nth row (fst st) [])) p /\
  rz (nth row (fst (tadd st g)) []) p = tz g (rx (nth row (fst st) [])) (rz (nth row (fst st) [])) p.
Proof.
  intros I OK Hr p Hp. unfold tadd. cbn [fst]. rewrite nth_map_row by (rewrite (bi_len _ I); auto).
  destruct (trow_bits g _ OK (bi_row _ I row Hr)) as (A & B & _). auto.
Qed.
Definition s1 (row : nat) (st : bst) (j : nat) : bst := if tent (fst st) row j then add_s n j st else add_h n j st.
Lemma step1_gen row : (row < 2 * n)%nat -> forall cols st, binv st -> NoDup cols ->
  (forall j, In j cols -> (j < n)%nat /\ rz (nth row (fst st) []) j = true) ->
  exists gs, fold_left (s1 row) cols st = run gs st /\ Forall tok gs /\
    (forall g, In g gs -> exists j, In j cols /\ (g = TS j \/ g = TH j /\ rx (nth row (fst st) []) j = false)) /\
    (forall p, (p < n)%nat -> (In p cols -> rx (nth row (fst (run gs st)) []) p = true /\ rz (nth row (fst (run gs st)) []) p = false) /\
      (~ In p cols -> rx (nth row (fst (run gs st)) []) p = rx (nth row (fst st) []) p /\ rz (nth row (fst (run gs st)) []) p = rz (nth row (fst st) []) p)).
Proof.
  intros Hr. induction cols as [|j cols IH]; intros st I ND H.
  - exists []. cbn. repeat split; try tauto. constructor.
  - inversion ND as [|? ? N1 N2]; subst. destruct (H j) as [Hj Hz]; [simpl; auto|].
    set (g := if rx (nth row (fst st) []) j then TS j else TH j).
    assert (OK : tok g). { unfold g. destruct (rx _ _); split; cbn; auto using nodup1; intros q [<-|[]]; auto. }
    assert (ES : s1 row st j = tadd st g). { unfold s1, g, tent. fold (rx (nth row (fst st) []) j). destruct (rx _ _); reflexivity. }
    pose proof (tadd_row st g row I OK Hr) as TB.
    assert (TJ : rx (nth row (fst (tadd st g)) []) j = true /\ rz (nth row (fst (tadd st g)) []) j = false).
    { destruct (TB j Hj) as [-> ->]. unfold g. destruct (rx (nth row (fst st) []) j) eqn:E; cbn [tx tz]; rewrite ?Nat.eqb_refl, ?Hz, ?E; auto. }
    assert (TO : forall p, (p < n)%nat -> p <> j -> rx (nth row (fst (tadd st g)) []) p = rx (nth row (fst st) []) p /\ rz (nth row (fst (tadd st g)) []) p = rz (nth row (fst st) []) p).
    { intros p Hp Np. destruct (TB p Hp) as [-> ->]. apply Nat.eqb_neq in Np. unfold g. destruct (rx (nth row (fst st) []) j); cbn [tx tz]; rewrite ?Np; auto. }
    destruct (IH (tadd st g)) as (gs & A & B & D & F); auto using binv_tadd.
    { intros k Hk. assert (k <> j) by (intros ->; auto). destruct (H k) as [U1 U2]; [simpl; auto|]. split; auto. destruct (TO k); auto. congruence. }
    exists (g :: gs). split; [|split; [|split]].
    + cbn [fold_left]. rewrite ES, A. auto.
    + constructor; auto.
    + intros g' [<-|Hg'].
      * exists j. split; [simpl; auto|]. unfold g. destruct (rx (nth row (fst st) []) j) eqn:E; auto.
      * destruct (D g' Hg') as (k & K1 & K2). exists k. split; [simpl; auto|]. destruct K2 as [K2|[K2 K3]]; auto. right. split; auto.
        destruct (H k) as [U1 U2]; [simpl; auto|]. destruct (TO k) as [V1 V2]; auto. intros ->; auto. congruence.
    + intros p Hp. change (run (g :: gs) st) with (run gs (tadd st g)). destruct (F p Hp) as [F1 F2]. split.
      * intros [<-|Q]; auto. destruct (F2 N1) as [-> ->]. auto.
      * intros Q. simpl in Q. destruct F2 as [-> ->]; [tauto|]. apply TO; auto.
Qed.
Lemma step1_spec row st : (row < 2 * n)%nat -> binv st ->
  exists gs, do_step_1 n row st = run gs st /\ Forall tok gs /\
    (forall g, In g gs -> exists j, (rz (nth row (fst st) []) j = true /\ (j < n)%nat) /\ (g = TS j \/ g = TH j /\ rx (nth row (fst st) []) j = false)) /\
    (forall p, (p < n)%nat -> rx (nth row (fst (run gs st)) []) p = rx (nth row (fst st) []) p || rz (nth row (fst st) []) p /\
       rz (nth row (fst (run gs st)) []) p = false).
Proof.
  intros Hr I. unfold do_step_1. set (cols := flatnonzero _ n n).
  assert (HC : forall j, In j cols <-> (j < n)%nat /\ rz (nth row (fst st) []) j = true).
  { intros j. unfold cols. rewrite flatnonzero_In. unfold rz. rewrite (Nat.add_comm j n). tauto. }
  destruct (step1_gen row Hr cols st I (flatnonzero_nodup _ _ _)) as (gs & A & B & D & F). { apply HC. }
  exists gs. split; [exact A|]. split; [auto|]. split.
  - intros g Hg. destruct (D g Hg) as (j & J1 & J2). exists j. apply HC in J1. tauto.
  - intros p Hp. destruct (F p Hp) as [F1 F2]. destruct (rz (nth row (fst st) []) p) eqn:E.
    + destruct F1 as [-> ->]; [apply HC; auto|]. rewrite orb_true_r. auto.
    + destruct F2 as [-> ->]. { rewrite HC. intros [_ K]. congruence. } rewrite orb_false_r. auto.
Qed.
Lemma list_ind2 (P : list nat -> Prop) : P [] -> (forall a, P [a]) -> (forall a b l, P l -> P (a :: b :: l)) -> forall l, P l.
Proof. intros H1 H2 H3. fix IH 1. intros [|a [|b l]]; [exact H1|apply H2|apply H3, IH]. Qed.
Lemma evens_incl l : incl (evens l) l.
Proof. induction l as [| |a b l IH] using list_ind2; intros p; cbn [evens In]; auto. intros [->|H]; auto. Qed.
Lemma evens_nodup l : NoDup l -> NoDup (evens l).
Proof.
  induction l as [| |a b l IH] using list_ind2; simpl; auto. intros ND. inversion ND as [|? ? N1 N2]; subst. inversion N2; subst.
  constructor; auto. intros H. apply evens_incl in H. apply N1. simpl; auto.
Qed.
Lemma evens_len l : (length (evens l) <= length l)%nat.
Proof. induction l as [| |a b l IH] using list_ind2; simpl; lia. Qed.
Lemma pairs_spec row : (row < 2 * n)%nat -> forall cols st, binv st -> NoDup cols -> (forall j, In j cols -> (j < n)%nat /\ rx (nth row (fst st) []) j = true) ->
  (forall p, (p < n)%nat -> rz (nth row (fst st) []) p = false) ->
  exists gs, cnot_pairs n cols st = run gs st /\ Forall tok gs /\
    (forall g, In g gs -> exists a b, g = TC a b /\ In a cols /\ In b (tl cols)) /\
    (forall p, (p < n)%nat -> rz (nth row (fst (run gs st)) []) p = false) /\
    (forall p, (p < n)%nat -> (In p (evens cols) -> rx (nth row (fst (run gs st)) []) p = true) /\
      (In p cols -> ~ In p (evens cols) -> rx (nth row (fst (run gs st)) []) p = false) /\
      (~ In p cols -> rx (nth row (fst (run gs st)) []) p = rx (nth row (fst st) []) p)).
Proof.
  intros Hr. induction cols as [|a|a b cols IH] using list_ind2; intros st I ND H HZ.
  - exists []. cbn. repeat split; try tauto; auto.
  - exists []. cbn. destruct (H a) as [Ha Hx]; [simpl; auto|]. repeat split; try tauto; auto. intros [<-|[]]. auto.
  - inversion ND as [|? ? N1 N2]; subst. inversion N2 as [|? ? N3 N4]; subst. simpl in N1.
    destruct (H a) as [Ha Hxa]; [simpl; auto|]. destruct (H b) as [Hb Hxb]; [simpl; auto|].
    assert (AB : a <> b) by (intros ->; tauto).
    set (g := TC a b). assert (OK : tok g). { split; cbn; [apply nodup2; auto|]. intros q [<-|[<-|[]]]; auto. }
    pose proof (tadd_row st g row I OK Hr) as TB. unfold g in TB. cbn [tx tz] in TB. fold g in TB.
    destruct (IH (tadd st g)) as (gs & A & B & D & Z & F); auto using binv_tadd.
    { intros j Hj. destruct (H j) as [K1 K2]; [simpl; auto|]. split; auto. destruct (TB j K1) as [-> _].
      destruct (Nat.eqb_spec j b) as [->|]; [tauto|auto]. }
    { intros p Hp. destruct (TB p Hp) as [_ ->]. destruct (p =? a)%nat; rewrite ?HZ by auto; auto. }
    exists (g :: gs). split; [|split; [|split; [|split]]].
    + cbn [cnot_pairs]. change (add_cnot n a b st) with (tadd st g). rewrite A. auto.
    + constructor; auto.
    + intros g' [<-|Hg']; [exists a, b; simpl; auto|]. destruct (D g' Hg') as (c & t & E1 & E2 & E3). exists c, t. split; auto. simpl. split; auto.
      right. destruct cols; simpl in *; auto.
    + exact Z.
    + intros p Hp. change (run (g :: gs) st) with (run gs (tadd st g)). destruct (F p Hp) as (F1 & F2 & F3). destruct (TB p Hp) as [T1 _].
      assert (Ia : ~ In a (evens cols)) by (intros Q; apply evens_incl in Q; tauto).
      cbn [evens]. split; [|split].
      * intros [<-|Q]; auto. rewrite F3 by tauto. rewrite T1. destruct (Nat.eqb_spec a b); [tauto|auto].
      * intros [<-|[<-|Q]] NQ; simpl in NQ; [tauto| |apply F2; tauto]. rewrite F3 by auto. rewrite T1, Nat.eqb_refl, Hxa, Hxb. auto.
      * intros Q. simpl in Q. rewrite F3 by tauto. rewrite T1. destruct (Nat.eqb_spec p b) as [->|]; [tauto|auto].
Qed.
Lemma step2_gen row : (row < 2 * n)%nat -> forall fuel cols st, binv st -> NoDup cols -> cols <> [] -> (length cols <= S fuel)%nat ->
  (forall j, In j cols -> (j < n)%nat) -> (forall p, (p < n)%nat -> rx (nth row (fst st) []) p = true <-> In p cols) ->
  (forall p, (p < n)%nat -> rz (nth row (fst st) []) p = false) ->
  exists gs, step2_loop fuel n cols st = Ok (hd 0%nat cols, run gs st) /\ Forall tok gs /\
    (forall g, In g gs -> exists a b, g = TC a b /\ In a cols /\ In b (tl cols)) /\ isX (hd 0%nat cols) (nth row (fst (run gs st)) []).
Proof.
  intros Hr. induction fuel as [|fuel IH]; intros cols st I ND NE L LT HX HZ.
  - destruct cols as [|a [|b cols]]; [congruence| |simpl in L; lia]. exists []. cbn. repeat split; try tauto; auto.
    apply eq_true_iff_eq. rewrite HX, Nat.eqb_eq by auto. simpl. split; [intros [->|[]]; auto|auto].
  - destruct cols as [|a [|b cols]]; [congruence| |].
    { exists []. cbn. repeat split; try tauto; auto.
      apply eq_true_iff_eq. rewrite HX, Nat.eqb_eq by auto. simpl. split; [intros [->|[]]; auto|auto]. }
    set (cs := a :: b :: cols) in *.
    destruct (pairs_spec row Hr cs st I ND) as (gs & A & B & D & Z & F); auto.
    { intros j Hj. split; auto. apply HX; auto. }
    destruct (IH (evens cs) (run gs st)) as (gs' & A' & B' & D' & X').
    + apply binv_run; auto.
    + apply evens_nodup; auto.
    + unfold cs. discriminate.
    + unfold cs in *. cbn [evens length] in *. pose proof (evens_len cols). lia.
    + intros j Hj. apply LT, evens_incl; auto.
    + intros p Hp. destruct (F p Hp) as (F1 & F2 & F3). split; [|auto]. intros E.
      destruct (in_dec Nat.eq_dec p (evens cs)); auto. destruct (in_dec Nat.eq_dec p cs) as [P|P].
      * rewrite F2 in E by auto. discriminate.
      * rewrite F3 in E by auto. apply HX in E; tauto.
    + auto.
    + exists (gs ++ gs'). split; [|split; [|split]].
      * cbn [step2_loop]. unfold cs at 1. fold cs. rewrite A, run_app. exact A'.
      * apply Forall_app. auto.
      * intros g Hg. apply in_app_iff in Hg. destruct Hg as [Hg|Hg]; auto. destruct (D' g Hg) as (c & t & E1 & E2 & E3). exists c, t. split; auto.
        split; [apply evens_incl; auto|]. unfold cs in E3. cbn [evens tl] in E3. apply evens_incl in E3. simpl. auto.
      * rewrite run_app. exact X'.
Qed.
Lemma step2_spec row st : (row < 2 * n)%nat -> binv st -> (forall p, (p < n)%nat -> rz (nth row (fst st) []) p = false) ->
  let cols := flatnonzero (nth row (fst st) []) 0 n in
  exists gs, do_step_2 n row st = Ok (hd 0%nat cols, run gs st) /\ Forall tok gs /\ In (hd 0%nat cols) cols /\
    (forall g, In g gs -> exists a b, g = TC a b /\ In a cols /\ In b (tl cols)) /\ isX (hd 0%nat cols) (nth row (fst (run gs st)) []).
Proof.
  intros Hr I HZ cols. assert (NE : cols <> []).
  { destruct (row_nonzero st row I Hr) as (p & Hp & E). rewrite HZ, orb_false_r in E by auto. intros K.
    assert (In p cols) by (apply flatnonzero_In; auto). rewrite K in H. destruct H. }
  destruct (step2_gen row Hr (length cols) cols st I (flatnonzero_nodup _ _ _) NE) as (gs & A & B & D & X); auto.
  - intros j Hj. apply flatnonzero_In in Hj. tauto.
  - intros p Hp. unfold cols. rewrite flatnonzero_In. unfold rx. simpl. tauto.
  - exists gs. split; [exact A|]. split; [auto|]. split; [|auto]. destruct cols; [congruence|simpl; auto].
Qed.
Lemma hd_flatnonzero r q : (q < n)%nat -> nth q r false = true -> (forall p, (p < q)%nat -> nth p r false = false) -> hd 0%nat (flatnonzero r 0 n) = q.
Proof.
  intros Hq Q H. unfold flatnonzero, range. replace n with (q + S (n - q - 1))%nat by lia. rewrite seq_app, filter_app. cbn [seq filter Nat.add]. rewrite Q.
  assert (filter (fun j => nth j r false) (seq 0 q) = []) as E.
  { assert (G : forall l, (forall p, In p l -> nth p r false = false) -> filter (fun j => nth j r false) l = []).
    { induction l as [|p l IH]; intros K; auto. cbn [filter]. rewrite (K p) by (simpl; auto). apply IH. intros. apply K. simpl; auto. }
    apply G. intros p Hp. apply in_seq in Hp. apply H. lia. }
  cbn [Nat.add] in E. rewrite E. reflexivity.
Qed.
(** ** One qubit *)
Definition can (q : nat) (st : bst) : Prop := forall i, (i < q)%nat -> isX i (nth i (fst st) []) /\ isZ i (nth (i + n) (fst st) []).
Definition above (q : nat) (g : tstep) : Prop := forall j, In j (tcols g) -> (q <= j)%nat.
Lemma can_run q gs st : (q <= n)%nat -> binv st -> Forall tok gs -> (forall g, In g gs -> above q g) -> can q st -> can q (run gs st).
Proof.
  intros Hq I F A C i Hi. destruct (C i Hi) as [CX CZ].
  assert (U : Forall (untouched i) gs). { apply Forall_forall. intros g Hg K. specialize (A g Hg i K). lia. }
  destruct (run_row gs st i) as [E1 _]; [apply bi_lt; auto; lia|]. destruct (run_row gs st (i + n)) as [E2 _]; [apply bi_lt; auto; lia|].
  rewrite E1, E2. split.
  - apply isX_run; auto. apply (bi_row _ I). lia.
  - apply isZ_run; auto. { apply (bi_row _ I). lia. } apply (Forall_impl _ (untouched_zpres i)); auto.
Qed.
Lemma rel_F i j : (i + n <> j)%nat -> (j + n <> i)%nat -> rel i j = false.
Proof. intros. unfold rel. apply orb_false_iff. split; apply Nat.eqb_neq; auto. Qed.
Lemma can_cols q st k : binv st -> can q st -> (q < n)%nat -> (k = q \/ k = q + n)%nat -> forall i, (i < q)%nat -> rx (nth k (fst st) []) i = false /\ rz (nth k (fst st) []) i = false.
Proof.
  intros I C Hq Hk i Hi. destruct (C i Hi) as [CX CZ]. split.
  - rewrite (isZ_bit st i k I) with (k := (i + n)%nat); auto; try lia. apply rel_F; lia.
  - rewrite (isX_bit st i k I) with (k := i); auto; try lia. apply rel_F; lia.
Qed.
Lemma step1_above q st k gs : binv st -> can q st -> (q < n)%nat -> (k = q \/ k = q + n)%nat ->
  (forall g, In g gs -> exists j, (rz (nth k (fst st) []) j = true /\ (j < n)%nat) /\ (g = TS j \/ g = TH j /\ rx (nth k (fst st) []) j = false)) ->
  forall g, In g gs -> above q g.
Proof.
  intros I C Hq Hk H g Hg. destruct (H g Hg) as (j & (J1 & J2) & J3). 
  assert (q <= j)%nat. { destruct (Nat.le_gt_cases q j); auto. destruct (can_cols q st k I C Hq Hk j) as [_ E]; auto. congruence. }
  intros i Hi. destruct J3 as [->|[-> _]]; destruct Hi as [<-|[]]; auto.
Qed.
Lemma step2_above q st k gs : binv st -> can q st -> (q < n)%nat -> (k = q \/ k = q + n)%nat ->
  let cols := flatnonzero (nth k (fst st) []) 0 n in
  (forall g, In g gs -> exists a b, g = TC a b /\ In a cols /\ In b (tl cols)) ->
  (forall g, In g gs -> above q g) /\ forall j, In j cols -> (q <= j)%nat.
Proof.
  intros I C Hq Hk cols H.
  assert (K : forall j, In j cols -> (q <= j)%nat).
  { intros j Hj. apply flatnonzero_In in Hj. destruct Hj as [J1 J2]. simpl in J2. destruct (Nat.le_gt_cases q j); auto. destruct (can_cols q st k I C Hq Hk j) as [E _]; auto.
    unfold rx in E. congruence. }
  split; auto. intros g Hg j Hj. destruct (H g Hg) as (a & b & -> & A & B). destruct Hj as [<-|[<-|[]]]; apply K; auto. destruct cols; simpl in *; tauto.
Qed.
Lemma can_S q st : can q st -> isX q (nth q (fst st) []) -> isZ q (nth (q + n) (fst st) []) -> can (S q) st.
Proof. intros C A B i Hi. destruct (Nat.eq_dec i q) as [->|]; auto. apply C. lia. Qed.
Lemma step4_spec q st : (q < n)%nat -> binv st -> can q st -> isX q (nth q (fst st) []) ->
  exists st', (let st := do_step_1 n (q + n) (add_h n q st) in
      do (pivot, st) <- do_step_2 n (q + n) st;
      if (pivot =? q)%nat then Ok (add_h n q st) else Err EAssert) = Ok st' /\ binv st' /\ can (S q) st'.
Proof.
  intros Hq I C HX.
  assert (OKH : tok (TH q)). { split; cbn; [apply nodup1|]. intros j [<-|[]]. auto. }
  change (add_h n q st) with (tadd st (TH q)). set (sh := tadd st (TH q)).
  assert (Ih : binv sh) by (apply binv_tadd; auto).
  assert (Ch : can q sh). { apply (can_run q [TH q] st); auto; try lia. intros g [<-|[]] j [<-|[]]. auto. }
  pose proof (tadd_row st (TH q) q I OKH ltac:(lia)) as Rq. fold sh in Rq. cbn [tx tz] in Rq.
  pose proof (tadd_row st (TH q) (q + n) I OKH ltac:(lia)) as Rz. fold sh in Rz. cbn [tx tz] in Rz.
  assert (HZh : isZ q (nth q (fst sh) [])).
  { intros p Hp. destruct (Rq p Hp) as [-> ->]. destruct (HX p Hp) as [X1 X2]. destruct (HX q Hq) as [Y1 Y2]. destruct (Nat.eqb_spec p q) as [->|N]; auto.
    }
  assert (Xq : rx (nth (q + n) (fst sh) []) q = true).
  { destruct (Rz q Hq) as [-> _]. rewrite Nat.eqb_refl. rewrite (isX_bit st q (q + n) I) with (k := q); auto; try lia. unfold rel. rewrite Nat.eqb_refl. auto. }
  destruct (step1_spec (q + n) sh ltac:(lia) Ih) as (g1 & E1 & T1 & D1 & B1). cbv zeta. rewrite E1. set (s1' := run g1 sh) in *.
  assert (A1 : forall g, In g g1 -> above q g) by (apply (step1_above q sh (q + n)); auto).
  assert (I1 : binv s1') by (apply binv_run; auto).
  assert (C1' : can q s1') by (apply can_run; auto; lia).
  assert (Z1 : isZ q (nth q (fst s1') [])).
  { unfold s1'. destruct (run_row g1 sh q) as [-> _]; [apply bi_lt; auto; lia|]. apply isZ_run; auto. { apply (bi_row _ Ih); lia. }
    apply Forall_forall. intros g Hg. destruct (D1 g Hg) as (j & _ & [->|[-> K]]); simpl; auto. intros ->. congruence. }
  destruct (step2_spec (q + n) s1' ltac:(lia) I1) as (g2 & E2 & T2 & H2 & D2 & X2). { intros p Hp. apply B1; auto. }
  set (cols := flatnonzero _ 0 n) in *.
  destruct (step2_above q s1' (q + n) g2 I1 C1' Hq ltac:(auto) D2) as [A2 K2]. fold cols in K2.
  assert (HD : hd 0%nat cols = q).
  { apply hd_flatnonzero; auto.
    - destruct (B1 q Hq) as [B _]. unfold rx in B at 1. rewrite B, Xq. auto.
    - intros p Hp. apply (can_cols q s1' (q + n)); auto. }
  rewrite E2. cbn [rbind]. rewrite HD in *. rewrite Nat.eqb_refl. set (s2 := run g2 s1') in *.
  assert (I2 : binv s2) by (apply binv_run; auto).
  assert (C2 : can q s2) by (apply can_run; auto; lia).
  assert (Z2 : isZ q (nth q (fst s2) [])).
  { unfold s2. destruct (run_row g2 s1' q) as [-> _]; [apply bi_lt; auto; lia|]. apply isZ_run; auto. { apply (bi_row _ I1); lia. }
    apply Forall_forall. intros g Hg. destruct (D2 g Hg) as (a & b & -> & _ & Hb). simpl. intros ->. 
    pose proof (flatnonzero_nodup (nth (q + n) (fst s1') []) 0 n) as ND. fold cols in ND. destruct cols as [|c cols]; [destruct Hb|].
    simpl in HD, Hb. subst c. inversion ND; subst. tauto. }
  change (add_h n q s2) with (tadd s2 (TH q)).
  exists (tadd s2 (TH q)). split; [auto|]. split; [apply binv_tadd; auto|].
  apply can_S.
  - apply (can_run q [TH q] s2); auto; try lia. intros g [<-|[]] j [<-|[]]. auto.
  - intros p Hp. destruct (tadd_row s2 (TH q) q I2 OKH ltac:(lia) p Hp) as [-> ->]. cbn [tx tz]. destruct (Z2 p Hp) as [U1 U2], (Z2 q Hq) as [V1 V2].
    destruct (Nat.eqb_spec p q) as [->|N]; auto.
  - intros p Hp. destruct (tadd_row s2 (TH q) (q + n) I2 OKH ltac:(lia) p Hp) as [-> ->]. cbn [tx tz]. destruct (X2 p Hp) as [U1 U2], (X2 q Hq) as [V1 V2].
    destruct (Nat.eqb_spec p q) as [->|N]; auto.
Qed.
Lemma process_spec q st : (q < n)%nat -> binv st -> can q st -> exists st', process_qubit n st q = Ok st' /\ binv st' /\ can (S q) st'.
Proof.
  intros Hq I C. unfold process_qubit.
  destruct (step1_spec q st ltac:(lia) I) as (g1 & E1 & T1 & D1 & B1). cbv zeta. rewrite E1. set (s1' := run g1 st) in *.
  assert (A1 : forall g, In g g1 -> above q g) by (apply (step1_above q st q); auto).
  assert (I1 : binv s1') by (apply binv_run; auto).
  assert (C1' : can q s1') by (apply can_run; auto; lia).
  destruct (step2_spec q s1' ltac:(lia) I1) as (g2 & E2 & T2 & H2 & D2 & X2). { intros p Hp. apply B1; auto. }
  set (cols := flatnonzero _ 0 n) in *.
  destruct (step2_above q s1' q g2 I1 C1' Hq ltac:(auto) D2) as [A2 K2]. fold cols in K2.
  rewrite E2. cbn [rbind]. set (s2 := run g2 s1') in *. set (pv := hd 0%nat cols) in *.
  assert (I2 : binv s2) by (apply binv_run; auto).
  assert (C2 : can q s2) by (apply can_run; auto; lia).
  assert (Pn : (pv < n)%nat) by (apply flatnonzero_In in H2; tauto).
  assert (G3 : exists s3, (if (pv =? q)%nat then s2 else add_swap n q pv s2) = s3 /\ binv s3 /\ can q s3 /\ isX q (nth q (fst s3) [])).
  { destruct (Nat.eqb_spec pv q) as [E|N]; [exists s2; rewrite E in X2; auto|].
    assert (OK : tok (TW q pv)). { split; cbn; [apply nodup2; auto|]. intros j [<-|[<-|[]]]; auto. }
    exists (tadd s2 (TW q pv)). split; [reflexivity|]. split; [apply binv_tadd; auto|]. split.
    - apply (can_run q [TW q pv] s2); auto; try lia. intros g [<-|[]] j [<-|[<-|[]]]; auto.
    - intros p Hp. destruct (tadd_row s2 (TW q pv) q I2 OK ltac:(lia) p Hp) as [-> ->]. cbn [tx tz]. 
      destruct (X2 p Hp) as [U1 U2], (X2 q Hq) as [V1 V2], (X2 pv Pn) as [W1 W2]. rewrite Nat.eqb_refl in W1.
      destruct (Nat.eqb_spec p q) as [->|N1]; auto. destruct (Nat.eqb_spec p pv) as [->|N2].
      + rewrite V1, V2. split; auto. apply Nat.eqb_neq. auto.
      + rewrite U1, U2. split; auto. }
  destruct G3 as (s3 & -> & I3 & C3 & X3). 
  destruct (step4_spec q s3 Hq I3 C3 X3) as (st' & E4 & I4 & C4). cbv zeta in E4.
  destruct (flatnonzero (nth (q + n) (fst s3) []) 0 (2 * n)) as [|c [|c' l]] eqn:EF.
  - exists st'. auto.
  - destruct (Nat.eqb_spec c (q + n)) as [->|N]; [|exists st'; auto].
    exists s3. split; [auto|]. split; [auto|]. apply can_S; auto.
    assert (K : forall j, (j < 2 * n)%nat -> nth j (nth (q + n) (fst s3) []) false = (j =? q + n)%nat).
    { intros j Hj. apply eq_true_iff_eq. rewrite Nat.eqb_eq. pose proof (flatnonzero_In (nth (q + n) (fst s3) []) 0 (2 * n) j) as FI. rewrite EF in FI. simpl in FI.
      split; [intros Q; assert (q + n = j \/ False)%nat by (apply FI; split; [lia|auto]); lia|intros ->; apply FI; auto]. }
    intros p Hp. unfold rx, rz. rewrite !K by lia. split; [apply Nat.eqb_neq; lia|].
    destruct (Nat.eqb_spec p q) as [->|N]; [apply Nat.eqb_refl|apply Nat.eqb_neq; lia].
  - exists st'. auto.
Qed.
Lemma loop_spec st : binv st -> exists st', rfold (process_qubit n) (range n) st = Ok st' /\ binv st' /\ can n st'.
Proof.
  intros I. assert (G : forall k, (k <= n)%nat -> exists st', rfold (process_qubit n) (range k) st = Ok st' /\ binv st' /\ can k st').
  { induction k as [|k IH]; intros Hk.
    - exists st. cbn. split; [auto|]. split; [auto|]. intros i Hi. lia.
    - destruct IH as (s & E & Is & Cs); [lia|]. destruct (process_spec k s) as (s' & E' & I' & C'); auto.
      exists s'. unfold range in *. rewrite seq_S, rfold_app, E. cbn [rfold Nat.add]. rewrite E'. auto. }
  apply (G n). auto.
Qed.
(** ** Signs *)
Lemma gates_sign_far t i q A psi : i <> q -> gates (rev (sign_instr t n q)) (app_op (OApp1 A i) psi) = app_op (OApp1 A i) (gates (rev (sign_instr t n q)) psi).
Proof.
  intros N. unfold sign_instr. destruct (tent t q (2 * n)), (tent t (q + n) (2 * n)); unfold gates; cbn [rev app fold_left gate]; auto; apply app1_comm; auto.
Qed.
Lemma sX_X : mmul mX mX = mscale C1 (mmul mX mX). Proof. meq; ring. Qed.
Lemma gates_sign_X t q psi : gates (rev (sign_instr t n q)) (app_op (OApp1 mX q) psi) = cscale (sgn (tent t q (2 * n))) (app_op (OApp1 mX q) (gates (rev (sign_instr t n q)) psi)).
Proof.
  unfold sign_instr. destruct (tent t q (2 * n)), (tent t (q + n) (2 * n)); unfold gates; cbn [rev app fold_left gate].
  - change mX with (pm true false). apply conj1. rewrite Y_conj. auto.
  - change mX with (pm true false). apply conj1. rewrite Z_conj. auto.
  - rewrite cscale_1. auto.
  - rewrite cscale_1. auto.
Qed.
Lemma gates_sign_Z t q psi : gates (rev (sign_instr t n q)) (app_op (OApp1 mZ q) psi) = cscale (sgn (tent t (q + n) (2 * n))) (app_op (OApp1 mZ q) (gates (rev (sign_instr t n q)) psi)).
Proof.
  unfold sign_instr. destruct (tent t q (2 * n)), (tent t (q + n) (2 * n)); unfold gates; cbn [rev app fold_left gate].
  - change mZ with (pm false true). apply conj1. rewrite Y_conj. auto.
  - rewrite cscale_1. auto.
  - change mZ with (pm false true). apply conj1. rewrite X_conj. auto.
  - rewrite cscale_1. auto.
Qed.
Lemma gates_signs t A (s : nat -> bool) i : 
  (forall psi, gates (rev (sign_instr t n i)) (app_op (OApp1 A i) psi) = cscale (sgn (s i)) (app_op (OApp1 A i) (gates (rev (sign_instr t n i)) psi))) ->
  forall ql, NoDup ql -> forall psi, gates (rev (flat_map (sign_instr t n) ql)) (app_op (OApp1 A i) psi)
    = cscale (if in_dec Nat.eq_dec i ql then sgn (s i) else C1) (app_op (OApp1 A i) (gates (rev (flat_map (sign_instr t n) ql)) psi)).
Proof.
  intros H. induction ql as [|q ql IH]; intros ND psi.
  - cbn. rewrite cscale_1. auto.
  - inversion ND as [|? ? N1 N2]; subst. cbn [flat_map]. rewrite rev_app_distr, !gates_app. rewrite IH by auto. rewrite gates_scale.
    destruct (Nat.eq_dec i q) as [->|N].
    + rewrite H. destruct (in_dec Nat.eq_dec q ql); [tauto|]. rewrite cscale_1. destruct (in_dec Nat.eq_dec q (q :: ql)) as [|K]; auto. exfalso. apply K. simpl. auto.
    + rewrite gates_sign_far by auto. f_equal.
      destruct (in_dec Nat.eq_dec i ql) as [K|K], (in_dec Nat.eq_dec i (q :: ql)) as [K'|K']; auto; simpl in K'; [tauto|].
      exfalso. destruct K'; auto.
Qed.
Lemma berg_gates st : binv st -> can n st -> let l := rev (snd (correct_signs n st)) in
  forall i, (i < n)%nat -> forall psi,
    gates l (app_op (OApp1 mX i) psi) = rop (nth i tab0 []) (gates l psi) /\
    gates l (app_op (OApp1 mZ i) psi) = rop (nth (i + n) tab0 []) (gates l psi).
Proof.
  intros I C l i Hi psi. unfold l, correct_signs. cbn [snd]. rewrite rev_app_distr, !gates_app. destruct (C i Hi) as [CX CZ].
  assert (IR : In i (range n)) by (apply in_range; auto). split.
  - rewrite (gates_signs (fst st) mX (fun q => tent (fst st) q (2 * n)) i (gates_sign_X (fst st) i) (range n)) by apply seq_NoDup.
    destruct (in_dec Nat.eq_dec i (range n)); [|tauto]. rewrite <- (bi_conj _ I) by lia. rewrite (isX_rop i) by auto. auto.
  - rewrite (gates_signs (fst st) mZ (fun q => tent (fst st) (q + n) (2 * n)) i (gates_sign_Z (fst st) i) (range n)) by apply seq_NoDup.
    destruct (in_dec Nat.eq_dec i (range n)); [|tauto]. rewrite <- (bi_conj _ I) by lia. rewrite (isZ_rop i) by auto. auto.
Qed.
Definition instr_ok (i : instr) : Prop := is_meas i = false /\ NoDup (iqubits i) /\ forall q, In q (iqubits i) -> (q < n)%nat.
Lemma signs_ok st : binv st -> forall i, In i (snd (correct_signs n st)) -> instr_ok i.
Proof.
  intros I i Hi. unfold correct_signs in Hi. cbn [snd] in Hi. apply in_app_iff in Hi. destruct Hi as [Hi|Hi]; [apply (bi_ok _ I); auto|].
  apply in_flat_map in Hi. destruct Hi as (q & Q & Hi). apply in_seq in Q. unfold sign_instr in Hi.
  destruct (tent (fst st) q (2 * n)), (tent (fst st) (q + n) (2 * n)); simpl in Hi; try tauto; destruct Hi as [<-|[]]; (split; [auto|]; split; [apply nodup1|]; intros j [<-|[]]; lia).
Qed.
End Berg.

Lemma rmap_ok {A B} (f : A -> res B) l : (forall a, In a l -> exists b, f a = Ok b) -> exists bs, rmap f l = Ok bs /\ Forall2 (fun a b => f a = Ok b) l bs.
Proof.
  induction l as [|a l IH]; intros H; [exists []; split; [auto|constructor]|]. destruct (H a) as (b & E); [simpl; auto|]. destruct IH as (bs & E' & F).
  - intros. apply H. simpl; auto.
  - exists (b :: bs). cbn [rmap]. rewrite E. cbn [rbind]. rewrite E'. cbn. split; auto.
Qed.
Lemma csem_gates l : (forall i, In i l -> is_meas i = false) -> forall o k psi, csem o k l psi = gates l psi.
Proof.
  induction l as [|i l IH]; intros H o k psi; auto. rewrite csem_unit by (apply H; simpl; auto). unfold gates. cbn [fold_left]. apply IH. intros. apply H. simpl; auto.
Qed.
Lemma Forall2_nth {A B} (P : A -> B -> Prop) l l' d d' i : Forall2 P l l' -> (i < length l)%nat -> P (nth i l d) (nth i l' d').
Proof. intros F. revert i. induction F; intros [|i] Hi; simpl in *; auto; try lia. apply IHF. lia. Qed.
Lemma Forall2_len {A B} (P : A -> B -> Prop) l l' : Forall2 P l l' -> length l = length l'.
Proof. induction 1; simpl; auto. Qed.
Lemma tab_rop n p r psi : ps_ok p -> ps_dim p = n -> to_tableau p = Ok r -> rop n r psi = ps_op p psi /\ rlen n r.
Proof.
  intros OK D E. destruct (to_tableau_spec p OK) as (t & E' & L & A & B & S). rewrite E in E'. injection E' as <-. rewrite D in *. split; [|auto].
  rewrite ps_op_pprod, D by auto. unfold rop, sgnop. unfold rs. rewrite S. f_equal. apply pprod_ext. intros q Hq. apply in_seq in Hq. unfold rx, rz. rewrite A, B by lia. auto.
Qed.
Lemma vstack_ok n l : l <> [] -> (forall r, In r l -> length r = n) -> vstack l = Ok l.
Proof.
  intros NE H. destruct l as [|r l]; [congruence|]. cbn [vstack]. assert (forallb (fun r' => (length r' =? length r)%nat) l = true) as ->; auto.
  apply forallb_forall. intros r' Hr. apply Nat.eqb_eq. rewrite !H; simpl; auto.
Qed.
Lemma anti_sym P Q : (forall c psi, P (cscale c psi) = cscale c (P psi)) -> anticommute P Q -> anticommute Q P.
Proof. intros _ H psi. rewrite H, cscale_cscale. replace (- C1 * - C1)%C with C1 by ring. rewrite cscale_1. auto. Qed.
Theorem berg_correct n cm : (0 < n)%nat -> cm_valid n cm ->
  exists l, berg_instrs cm = Ok l /\ (forall i, In i l -> instr_ok n i) /\ forall o k, realises n cm (csem o k l).
Proof.
  intros Hn (LX & LZ & LI & LO & HP & HC). unfold berg_instrs.
  assert (TS : forall p, In p (cm_x cm ++ cm_z cm) -> exists t, to_tableau p = Ok t).
  { intros p Hp. destruct (HP p Hp) as [OK _]. destruct (to_tableau_spec p OK) as (t & E & _). eauto. }
  destruct (rmap_ok to_tableau _ TS) as (tab & ER & F).
  assert (LT : length tab = (2 * n)%nat) by (rewrite <- (Forall2_len _ _ _ F), app_length; lia).
  assert (NTH : forall i, (i < 2 * n)%nat -> to_tableau (nth i (cm_x cm ++ cm_z cm) ps0) = Ok (nth i tab []) /\ ps_ok (nth i (cm_x cm ++ cm_z cm) ps0) /\ ps_dim (nth i (cm_x cm ++ cm_z cm) ps0) = n).
  { intros i Hi. assert (K : (i < length (cm_x cm ++ cm_z cm))%nat) by (rewrite app_length; lia). split; [apply (Forall2_nth _ _ _ _ _ _ F K)|]. apply HP, nth_In; auto. }
  assert (RX : forall i psi, (i < n)%nat -> rop n (nth i tab []) psi = ps_op (nth i (cm_x cm) ps0) psi).
  { intros i psi Hi. destruct (NTH i) as (A & B & D); [lia|]. rewrite app_nth1 in A, B, D by lia. apply (tab_rop n _ _ psi B D A). }
  assert (RZ : forall i psi, (i < n)%nat -> rop n (nth (i + n) tab []) psi = ps_op (nth i (cm_z cm) ps0) psi).
  { intros i psi Hi. destruct (NTH (i + n)%nat) as (A & B & D); [lia|]. rewrite app_nth2 in A, B, D by lia. rewrite LX in *. replace (i + n - n)%nat with i in * by lia. apply (tab_rop n _ _ psi B D A). }
  assert (RL : forall i, (i < 2 * n)%nat -> rlen n (nth i tab [])).
  { intros i Hi. destruct (NTH i) as (A & B & D); auto. apply (tab_rop n _ _ (fun _ => C0) B D A). }
  unfold cm_tableau. rewrite LI, LO, Nat.eqb_refl, ER. cbn [rbind].
  rewrite (vstack_ok (2 * n + 1) tab); [|intros ->; simpl in LT; lia|intros r Hr; apply (In_nth _ _ []) in Hr; destruct Hr as (i & Hi & <-); apply RL; lia]. cbn [rbind].
  assert (CR : crel n tab).
  { intros i j Hi Hj psi.
    assert (Di : (i < n)%nat \/ exists i', i = (i' + n)%nat /\ (i' < n)%nat) by (destruct (Nat.lt_ge_cases i n); [auto|right; exists (i - n)%nat; lia]).
    assert (Dj : (j < n)%nat \/ exists j', j = (j' + n)%nat /\ (j' < n)%nat) by (destruct (Nat.lt_ge_cases j n); [auto|right; exists (j - n)%nat; lia]).
    destruct Di as [Di|(i' & -> & Di)], Dj as [Dj|(j' & -> & Dj)].
    - rewrite rel_F by lia. cbn [sgn]. rewrite cscale_1, !(RX i), !(RX j), ?(RX i) by auto. apply HC; auto.
    - rewrite !(RX i), !(RZ j'), ?(RX i) by auto. destruct (HC i j' Di Dj) as (_ & _ & H). unfold rel. 
      destruct (Nat.eqb_spec i j') as [->|N].
      + rewrite Nat.eqb_refl. cbn [orb sgn]. apply H.
      + replace (i + n =? j' + n)%nat with false by (symmetry; apply Nat.eqb_neq; lia). replace (j' + n + n =? i)%nat with false by (symmetry; apply Nat.eqb_neq; lia).
        cbn [orb sgn]. rewrite cscale_1. apply H.
    - rewrite !(RX j), !(RZ i'), ?(RX j) by auto. destruct (HC j i' Dj Di) as (_ & _ & H). unfold rel.
      destruct (Nat.eqb_spec j i') as [->|N].
      + rewrite Nat.eqb_refl, orb_true_r. cbn [sgn]. rewrite H, cscale_cscale. replace (- C1 * - C1)%C with C1 by ring. rewrite cscale_1. auto.
      + replace (i' + n + n =? j)%nat with false by (symmetry; apply Nat.eqb_neq; lia). replace (j + n =? i' + n)%nat with false by (symmetry; apply Nat.eqb_neq; lia).
        cbn [orb sgn]. rewrite cscale_1. symmetry. apply H.
    - rewrite rel_F by lia. cbn [sgn]. rewrite cscale_1, !(RZ i'), !(RZ j'), ?(RZ i') by auto. apply HC; auto. }
  assert (I0 : binv n tab (tab, [])).
  { constructor; cbn [fst snd]; auto. intros i []. }
  destruct (loop_spec n tab CR (tab, []) I0) as (st & E & I & C).
  match goal with |- context [rfold ?f ?l ?a] => replace (rfold f l a) with (Ok st : res bst) by (symmetry; exact E) end. cbn [rbind].
  exists (rev (snd (correct_signs n st))). split; [auto|].
  assert (OK : forall i, In i (rev (snd (correct_signs n st))) -> instr_ok n i) by (intros i Hi; apply in_rev in Hi; apply (signs_ok n tab st I); auto).
  split; [auto|]. intros o k i Hi psi. rewrite !csem_gates by (intros; apply OK; auto).
  destruct (berg_gates n tab st I C i Hi psi) as [A B]. rewrite A, B, RX, RZ by auto. auto.
Qed.
