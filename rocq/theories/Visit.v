(** Model of the rewriting of circuits: instruction visitors (BaseInstruction.visit
    in graphix/instruction.py), Circuit.visit, apply_angle, is_parameterized and
    replace_parameter(s) of graphix/transpiler.py.

    Instructions are mutable objects: a first model keeps the instructions of all
    the circuits of a program in one store, a circuit being a list of addresses.
    A second one handles circuits as plain values; PropVisit proves that a
    program cannot tell them apart. *)
From Coq Require Import Reals Lra Arith List Bool Lia Permutation FunctionalExtensionality.
From Verif Require Layer.
From Verif Require Import Cplx Mat2 NSet QState Fundamentals CliffordDb Clifford Measure Pattern Statevec Density Circuit Swaps Param.
Import ListNotations.
Local Open Scope nat_scope.

(** instruction.py:39-57 InstructionKind *)
Inductive gkind := KCCX | KRZZ | KCNOT | KCZ | KSWAP | KH | KS | KX | KY | KZ | KI | KM | KRX | KRY | KRZ | KJ.

(** instruction.py:113-346 the instruction classes, for angles of any type
    (numbers or parameterized expressions); constructor arguments are in the
    order of the fields *)
Inductive ginstr (A : Type) :=
| GCCX (target c0 c1 : nat)
| GRZZ (target control : nat) (angle : A)
| GCNOT (target control : nat)
| GCZ (u v : nat)
| GSWAP (u v : nat)
| GH (q : nat) | GS (q : nat) | GX (q : nat) | GY (q : nat) | GZ (q : nat) | GI (q : nat)
| GM (q : nat) (ax : axis)
| GRX (q : nat) (angle : A) | GRY (q : nat) (angle : A) | GRZ (q : nat) (angle : A)
| GJ (q : nat) (angle : A).
Arguments GCCX {A}. Arguments GRZZ {A}. Arguments GCNOT {A}. Arguments GCZ {A}. Arguments GSWAP {A}.
Arguments GH {A}. Arguments GS {A}. Arguments GX {A}. Arguments GY {A}. Arguments GZ {A}. Arguments GI {A}.
Arguments GM {A}. Arguments GRX {A}. Arguments GRY {A}. Arguments GRZ {A}. Arguments GJ {A}.

(** the fields of an instruction: its kind, its qubits (target first), its angle
    and its axis, instruction.py:113-346 *)
Definition gkind_of {A} (i : ginstr A) : gkind :=
  match i with
  | GCCX _ _ _ => KCCX | GRZZ _ _ _ => KRZZ | GCNOT _ _ => KCNOT | GCZ _ _ => KCZ | GSWAP _ _ => KSWAP
  | GH _ => KH | GS _ => KS | GX _ => KX | GY _ => KY | GZ _ => KZ | GI _ => KI | GM _ _ => KM
  | GRX _ _ => KRX | GRY _ _ => KRY | GRZ _ _ => KRZ | GJ _ _ => KJ
  end.
Definition gqubits {A} (i : ginstr A) : list nat :=
  match i with
  | GCCX t c0 c1 => [t; c0; c1] | GRZZ t c _ => [t; c] | GCNOT t c => [t; c] | GCZ u v => [u; v] | GSWAP u v => [u; v]
  | GH q | GS q | GX q | GY q | GZ q | GI q | GM q _ | GRX q _ | GRY q _ | GRZ q _ | GJ q _ => [q]
  end.
Definition gangle {A} (i : ginstr A) : option A :=
  match i with GRZZ _ _ a | GRX _ a | GRY _ a | GRZ _ a | GJ _ a => Some a | _ => None end.
Definition gaxis {A} (i : ginstr A) : option axis := match i with GM _ ax => Some ax | _ => None end.

(** instruction.py:68-92 InstructionVisitor: three functions, which may raise *)
Record visitor (A B : Type) := Vis { v_qubit : nat -> res nat; v_angle : A -> res B; v_axis : axis -> res axis }.
Arguments Vis {A B}. Arguments v_qubit {A B}. Arguments v_angle {A B}. Arguments v_axis {A B}.
(** instruction.py:80-92 the default methods *)
Definition id_visitor {A} : visitor A A := Vis Ok Ok Ok.

(** instruction.py:125-134 (CCX), 146-156 (RZZ), 167-175 (CNOT), 186-193 (CZ),
    204-211 (SWAP), 221-226 (single target: H, S, X, Y, Z, I), 281-289 (M),
    300-308 (rotations: RX, RY, RZ, J): the new fields are all computed before
    any of them is assigned *)
Definition visit {A B} (v : visitor A B) (i : ginstr A) : res (ginstr B) :=
  match i with
  | GCCX t c0 c1 => do t' <- v_qubit v t; do a <- v_qubit v c0; do b <- v_qubit v c1; Ok (GCCX t' a b)
  | GRZZ t c x => do t' <- v_qubit v t; do c' <- v_qubit v c; do y <- v_angle v x; Ok (GRZZ t' c' y)
  | GCNOT t c => do t' <- v_qubit v t; do c' <- v_qubit v c; Ok (GCNOT t' c')
  | GCZ a b => do a' <- v_qubit v a; do b' <- v_qubit v b; Ok (GCZ a' b')
  | GSWAP a b => do a' <- v_qubit v a; do b' <- v_qubit v b; Ok (GSWAP a' b')
  | GH q => do q' <- v_qubit v q; Ok (GH q') | GS q => do q' <- v_qubit v q; Ok (GS q')
  | GX q => do q' <- v_qubit v q; Ok (GX q') | GY q => do q' <- v_qubit v q; Ok (GY q')
  | GZ q => do q' <- v_qubit v q; Ok (GZ q') | GI q => do q' <- v_qubit v q; Ok (GI q')
  | GM q ax => do q' <- v_qubit v q; do ax' <- v_axis v ax; Ok (GM q' ax')
  | GRX q x => do q' <- v_qubit v q; do y <- v_angle v x; Ok (GRX q' y)
  | GRY q x => do q' <- v_qubit v q; do y <- v_angle v x; Ok (GRY q' y)
  | GRZ q x => do q' <- v_qubit v q; do y <- v_angle v x; Ok (GRZ q' y)
  | GJ q x => do q' <- v_qubit v q; do y <- v_angle v x; Ok (GJ q' y)
  end.

(** transpiler.py:96-103 _MapAngleVisitor *)
Definition angle_visitor {A B} (f : A -> res B) : visitor A B := Vis Ok f Ok.
(** a visitor that renames the qubits; instruction.py:80-82 *)
Definition qubit_visitor {A} (f : nat -> nat) : visitor A A := Vis (fun q => Ok (f q)) Ok Ok.

(** * Circuits as values *)
(** transpiler.py:106-136 Circuit: width, instruction, active_qubits *)
Record gcirc (A : Type) := GCirc { g_width : nat; g_instr : list (ginstr A); g_active : nset }.
Arguments GCirc {A}. Arguments g_width {A}. Arguments g_instr {A}. Arguments g_active {A}.
(** the assertions of the gate methods, transpiler.py:184-431 *)
Definition gadd_ok {A} (active : nset) (i : ginstr A) : bool :=
  forallb (fun q => mem q active) (gqubits i) && match i with GRZZ _ _ _ => true | _ => ndb (gqubits i) end.
(** active_qubits after an instruction: transpiler.py:426-428 (m) *)
Definition gactive {A} (active : nset) (i : ginstr A) : nset := match i with GM q _ => sremove q active | _ => active end.
(** transpiler.py:184-431: a gate method appends an instruction or raises AssertionError *)
Definition gadd {A} (c : gcirc A) (i : ginstr A) : res (gcirc A) :=
  if gadd_ok (g_active c) i then Ok (GCirc (g_width c) (g_instr c ++ [i]) (gactive (g_active c) i)) else Err EAssert.
(** transpiler.py:121-136 Circuit(width, instr), 176-179 extend *)
Definition gmake {A} (w : nat) (l : list (ginstr A)) : res (gcirc A) := rfold gadd l (GCirc w [] (of_list (range w))).
(** visiting the instructions in order, stopping at the first exception:
    transpiler.py:663-665 (copy) and 667-668 (in place: the instructions visited
    before the exception are rewritten) *)
Fixpoint visit_all {A B} (v : visitor A B) (l : list (ginstr A)) : res (list (ginstr B)) :=
  match l with [] => Ok [] | i :: l' => do j <- visit v i; do r <- visit_all v l'; Ok (j :: r) end.
Fixpoint visit_some {A} (v : visitor A A) (l : list (ginstr A)) : list (ginstr A) * option err :=
  match l with
  | [] => ([], None)
  | i :: l' => match visit v i with
               | Ok j => let '(r, e) := visit_some v l' in (j :: r, e)
               | Err e => (l, Some e)
               end
  end.
(** transpiler.py:644-669 Circuit.visit with copy=True: a new Circuit(width) whose
    instruction list is filled directly, without the gate methods *)
Definition gvisit {A B} (v : visitor A B) (c : gcirc A) : res (gcirc B) :=
  do l <- visit_all v (g_instr c); Ok (GCirc (g_width c) l (of_list (range (g_width c)))).
(** transpiler.py:671-689 Circuit.apply_angle with copy=True *)
Definition apply_angle {A B} (f : A -> res B) (c : gcirc A) : res (gcirc B) := gvisit (angle_visitor f) c.

(** what a program does with circuits: create one, add an instruction to the
    k-th one, visit the k-th one (copy=True appends a circuit, copy=False
    rewrites it) *)
Inductive cop (A : Type) :=
| ONew (w : nat) | OAdd (k : nat) (i : ginstr A) | OCopy (k : nat) (v : visitor A A) | OInplace (k : nat) (v : visitor A A).
Arguments ONew {A}. Arguments OAdd {A}. Arguments OCopy {A}. Arguments OInplace {A}.

Definition vstep {A} (cs : list (gcirc A)) (o : cop A) : list (gcirc A) * option err :=
  match o with
  | ONew w => (cs ++ [GCirc w [] (of_list (range w))], None)
  | OAdd k i =>
      match nth_error cs k with
      | None => (cs, Some EIndex)
      | Some c => match gadd c i with Ok c' => (lset cs k c', None) | Err e => (cs, Some e) end
      end
  | OCopy k v =>
      match nth_error cs k with
      | None => (cs, Some EIndex)
      | Some c => match gvisit v c with Ok c' => (cs ++ [c'], None) | Err e => (cs, Some e) end
      end
  | OInplace k v =>
      match nth_error cs k with
      | None => (cs, Some EIndex)
      | Some c => let '(l, e) := visit_some v (g_instr c) in (lset cs k (GCirc (g_width c) l (g_active c)), e)
      end
  end.

(** * Circuits as objects *)
(** transpiler.py:105-137: the instruction list of a Circuit holds references to
    instruction objects *)
Record cobj := Obj { o_width : nat; o_refs : list nat; o_active : nset }.
Record heap (A : Type) := Heap { h_store : list (ginstr A); h_objs : list cobj }.
Arguments Heap {A}. Arguments h_store {A}. Arguments h_objs {A}.
Definition sget {A} (st : list (ginstr A)) (a : nat) : ginstr A := nth a st (GI 0).
(** transpiler.py:667-669 the loop of visit(copy=False): instruction.py:221-226
    and the like assign the fields of the visited object *)
Fixpoint inplace_loop {A} (v : visitor A A) (refs : list nat) (st : list (ginstr A)) : list (ginstr A) * option err :=
  match refs with
  | [] => (st, None)
  | a :: refs' => match visit v (sget st a) with Ok i => inplace_loop v refs' (lset st a i) | Err e => (st, Some e) end
  end.
(** transpiler.py:662-666 the loop of visit(copy=True): every visited instruction
    is a new object *)
Fixpoint copy_loop {A} (v : visitor A A) (refs : list nat) (st : list (ginstr A)) (acc : list nat) : list (ginstr A) * res (list nat) :=
  match refs with
  | [] => (st, Ok acc)
  | a :: refs' => match visit v (sget st a) with
                  | Ok i => copy_loop v refs' (st ++ [i]) (acc ++ [length st])
                  | Err e => (st, Err e)
                  end
  end.
(** the operations on objects: transpiler.py:121-137 (Circuit), 184-431 (the gate
    methods create a new instruction object), 644-669 (visit) *)
Definition hstep {A} (h : heap A) (o : cop A) : heap A * option err :=
  match o with
  | ONew w => (Heap (h_store h) (h_objs h ++ [Obj w [] (of_list (range w))]), None)
  | OAdd k i =>
      match nth_error (h_objs h) k with
      | None => (h, Some EIndex)
      | Some c => if gadd_ok (o_active c) i
                  then (Heap (h_store h ++ [i])
                         (lset (h_objs h) k (Obj (o_width c) (o_refs c ++ [length (h_store h)]) (gactive (o_active c) i))), None)
                  else (h, Some EAssert)
      end
  | OCopy k v =>
      match nth_error (h_objs h) k with
      | None => (h, Some EIndex)
      | Some c => match copy_loop v (o_refs c) (h_store h) [] with
                  | (st, Ok refs) => (Heap st (h_objs h ++ [Obj (o_width c) refs (of_list (range (o_width c)))]), None)
                  | (st, Err e) => (Heap st (h_objs h), Some e)
                  end
      end
  | OInplace k v =>
      match nth_error (h_objs h) k with
      | None => (h, Some EIndex)
      | Some c => let '(st, e) := inplace_loop v (o_refs c) (h_store h) in (Heap st (h_objs h), e)
      end
  end.
(** a whole program: final state and the exception (or not) of each operation *)
Fixpoint run_ops {S A} (step : S -> cop A -> S * option err) (s : S) (ops : list (cop A)) : S * list (option err) :=
  match ops with
  | [] => (s, [])
  | o :: ops' => let '(s1, e) := step s o in let '(s2, es) := run_ops step s1 ops' in (s2, e :: es)
  end.
(** what a user sees of the objects *)
Definition see {A} (st : list (ginstr A)) (c : cobj) : gcirc A := GCirc (o_width c) (map (sget st) (o_refs c)) (o_active c).
Definition see_all {A} (h : heap A) : list (gcirc A) := map (see (h_store h)) (h_objs h).

(** * Numbers and parameters *)
(** transpiler.py:601-636: the simulator on instructions with numeric angles *)
Definition to_instr (i : ginstr R) : instr :=
  match i with
  | GCCX t a b => ICCX t a b | GRZZ t c x => IRZZ t c x | GCNOT t c => ICNOT t c | GCZ a b => ICZ a b | GSWAP a b => ISWAP a b
  | GH q => IH q | GS q => IS q | GX q => IX q | GY q => IY q | GZ q => IZ q | GI q => II q | GM q ax => IM q ax
  | GRX q x => IRX q x | GRY q x => IRY q x | GRZ q x => IRZ q x | GJ q x => IJ q x
  end.
Definition is_num (v : val) : bool := match v with VNum _ => true | VAff _ _ _ => false end.
(** transpiler.py:691-706 Circuit.is_parameterized; parameter.py:146-280 AffineExpression has no
    __float__, so it is not an instance of SupportsFloat *)
Definition is_parameterized (c : gcirc val) : bool :=
  existsb (fun i => match i with GRZZ _ _ a | GRX _ a | GRY _ a | GRZ _ a => negb (is_num a) | _ => false end) (g_instr c).
Definition of_pres {A} (x : pres A) : res A := match x with POk a => Ok a | PErr _ => Err EValue end.
(** transpiler.py:708-719 replace_parameter, replace_parameters with copy=True *)
Definition replace_parameter (x : nat) (s : val) (c : gcirc val) : res (gcirc val) := apply_angle (fun a => of_pres (with_parameter a x s)) c.
Definition replace_parameters (asg : list (nat * val)) (c : gcirc val) : res (gcirc val) := apply_angle (fun a => of_pres (with_parameters a asg)) c.

(** * Instructions and fields *)
(** specification of a visit: field by field *)
Definition rewrites {A B} (v : visitor A B) (i : ginstr A) (j : ginstr B) : Prop :=
  gkind_of j = gkind_of i /\
  Forall2 (fun q q' => v_qubit v q = Ok q') (gqubits i) (gqubits j) /\
  match gangle i, gangle j with Some a, Some b => v_angle v a = Ok b | None, None => True | _, _ => False end /\
  match gaxis i, gaxis j with Some a, Some b => v_axis v a = Ok b | None, None => True | _, _ => False end.

Ltac vis H := repeat match type of H with
  | rbind ?e _ = _ => let E := fresh "E" in destruct e eqn:E; cbn [rbind] in H; [|try discriminate H]
  end.
Lemma visit_rewrites {A B} (v : visitor A B) i j : visit v i = Ok j <-> rewrites v i j.
Proof.
  split.
  - intros H. unfold rewrites. destruct i; cbn [visit] in H; vis H; injection H as <-; cbn [gkind_of gqubits gangle gaxis]; repeat split; auto.
  - intros (H1 & H2 & H3 & H4). destruct i, j; cbn [gkind_of gqubits gangle gaxis] in *; try discriminate H1;
    repeat match goal with H : Forall2 _ (_ :: _) _ |- _ => inversion H; clear H; subst | H : Forall2 _ [] _ |- _ => clear H end;
    cbn [visit]; repeat match goal with H : _ = Ok _ |- _ => rewrite H; clear H; cbn [rbind] end; reflexivity.
Qed.
(** a visit fails only if the visitor does *)
Lemma visit_err {A B} (v : visitor A B) i e : visit v i = Err e ->
  (exists q, In q (gqubits i) /\ v_qubit v q = Err e) \/ (exists a, gangle i = Some a /\ v_angle v a = Err e) \/ (exists x, gaxis i = Some x /\ v_axis v x = Err e).
Proof.
  intros H. destruct i; cbn [visit] in H; vis H; try (injection H as ->);
  first [ left; eexists; split; [|eassumption]; cbn [gqubits In]; auto; fail
        | right; left; eexists; split; [|eassumption]; reflexivity
        | right; right; eexists; split; [|eassumption]; reflexivity
        | discriminate H].
Qed.
Lemma visit_all_spec {A B} (v : visitor A B) l l' : visit_all v l = Ok l' <-> Forall2 (rewrites v) l l'.
Proof.
  revert l'; induction l as [|i l IH]; intros l'; cbn [visit_all].
  - split; intros H; [injection H as <-; constructor|inversion H; reflexivity].
  - split; intros H.
    + vis H. injection H as <-. constructor; [apply visit_rewrites; auto|apply IH; auto].
    + inversion H; subst. apply visit_rewrites in H2. rewrite H2. cbn [rbind]. apply IH in H4. rewrite H4. reflexivity.
Qed.
Lemma visit_some_spec {A} (v : visitor A A) l r e : visit_some v l = (r, e) ->
  match e with
  | None => Forall2 (rewrites v) l r
  | Some e => exists a i b a', l = a ++ i :: b /\ r = a' ++ i :: b /\ Forall2 (rewrites v) a a' /\ visit v i = Err e
  end.
Proof.
  revert r e; induction l as [|i l IH]; intros r e H; cbn [visit_some] in H; [injection H as <- <-; constructor|].
  destruct (visit v i) as [j|e0] eqn:E.
  - destruct (visit_some v l) as [r0 e0] eqn:E0. specialize (IH r0 e0 eq_refl). injection H as <- <-. destruct e0 as [e0|]; [|constructor; auto; apply visit_rewrites; auto].
    destruct IH as (a & i' & b & a' & -> & -> & F & X). exists (i :: a), i', b, (j :: a'). split; [reflexivity|]. split; [reflexivity|]. split; auto. constructor; auto. apply visit_rewrites; auto.
  - injection H as <- <-. exists [], i, l, []. auto.
Qed.

Lemma visit_some_all {A} (v : visitor A A) l r : visit_some v l = (r, None) <-> visit_all v l = Ok r.
Proof.
  revert r; induction l as [|i l IH]; intros r; cbn [visit_some visit_all].
  - split; intros H; injection H as <-; reflexivity.
  - destruct (visit v i) as [j|e]; cbn [rbind]; [|split; discriminate].
    destruct (visit_some v l) as [r0 e0], (visit_all v l) as [r1|e1]; cbn [rbind].
    + split; intros H; injection H as <-.
      * f_equal. f_equal. assert (K : Ok r1 = Ok r0) by (apply IH; subst; auto). injection K as ->. reflexivity.
      * assert (K : (r0, e0) = (r1, None)) by (apply IH; auto). injection K as -> ->. reflexivity.
    + split; intros H; [|discriminate]. injection H as <- ->. assert (K : Err e1 = Ok r0) by (apply IH; auto). discriminate.
Qed.
Lemma visit_some_err {A} (v : visitor A A) l r e : visit_some v l = (r, Some e) -> visit_all v l = Err e.
Proof.
  revert r; induction l as [|i l IH]; intros r; cbn [visit_some visit_all]; [discriminate|].
  destruct (visit v i) as [j|e1]; cbn [rbind]; [|intros H; injection H as _ <-; auto].
  destruct (visit_some v l) as [r0 e0]. intros H. injection H as <- ->. rewrite (IH r0 eq_refl). reflexivity.
Qed.

(** * Objects and values *)
Definition hinv {A} (h : heap A) : Prop :=
  NoDup (concat (map o_refs (h_objs h))) /\ forall a, In a (concat (map o_refs (h_objs h))) -> a < length (h_store h).
Lemma sget_lset {A} (st : list (ginstr A)) a i b : a < length st -> sget (lset st a i) b = if b =? a then i else sget st b.
Proof.
  intros H. unfold sget. destruct (Nat.eqb_spec b a) as [->|N].
  - apply nth_error_nth. apply nth_lset_same; auto.
  - destruct (nth_error st b) eqn:E.
    + rewrite (nth_error_nth st b _ E). apply nth_error_nth. rewrite nth_lset_other; auto.
    + apply nth_error_None in E. rewrite !nth_overflow; auto. rewrite lset_length. auto.
Qed.
Lemma sget_app {A} (st l : list (ginstr A)) a : a < length st -> sget (st ++ l) a = sget st a.
Proof. intros H. unfold sget. apply app_nth1; auto. Qed.
Lemma inplace_spec {A} (v : visitor A A) refs : forall st, NoDup refs -> (forall a, In a refs -> a < length st) ->
  let '(st', e) := inplace_loop v refs st in
  length st' = length st /\ visit_some v (map (sget st) refs) = (map (sget st') refs, e) /\ forall b, ~ In b refs -> sget st' b = sget st b.
Proof.
  induction refs as [|a refs IH]; intros st N B; cbn [inplace_loop map visit_some]; [auto|].
  inversion N; subst. destruct (visit v (sget st a)) as [i|e]; [|auto].
  assert (Ha : a < length st) by (apply B; left; auto).
  specialize (IH (lset st a i) H2). rewrite lset_length in IH. specialize (IH (fun b Hb => B b (or_intror Hb))).
  destruct (inplace_loop v refs (lset st a i)) as [st' e]. destruct IH as (L & V & O).
  assert (M : map (sget (lset st a i)) refs = map (sget st) refs).
  { apply map_ext_in. intros b Hb. rewrite sget_lset by auto. destruct (Nat.eqb_spec b a) as [->|]; [contradiction|auto]. }
  rewrite M in V. rewrite V. split; auto. split.
  - rewrite (O a H1), sget_lset, Nat.eqb_refl by auto. reflexivity.
  - intros b Hb. rewrite O by (intros K; apply Hb; right; auto). rewrite sget_lset by auto.
    destruct (Nat.eqb_spec b a) as [->|]; [elim Hb; left; auto|auto].
Qed.
Lemma copy_spec {A} (v : visitor A A) refs : forall st acc, (forall a, In a refs -> a < length st) ->
  let '(st', x) := copy_loop v refs st acc in
  exists new, st' = st ++ new /\
  match x with
  | Ok r => visit_all v (map (sget st) refs) = Ok new /\ r = acc ++ seq (length st) (length new)
  | Err e => visit_all v (map (sget st) refs) = Err e
  end.
Proof.
  induction refs as [|a refs IH]; intros st acc B; cbn [copy_loop map visit_all].
  - exists []. rewrite !app_nil_r. auto.
  - destruct (visit v (sget st a)) as [i|e]; [|exists []; rewrite app_nil_r; auto]. cbn [rbind].
    assert (B' : forall b, In b refs -> b < length (st ++ [i])) by (intros b Hb; rewrite app_length; cbn; specialize (B b (or_intror Hb)); lia).
    specialize (IH (st ++ [i]) (acc ++ [length st]) B').
    assert (M : map (sget (st ++ [i])) refs = map (sget st) refs) by (apply map_ext_in; intros b Hb; apply sget_app, B; right; auto).
    rewrite M in IH. destruct (copy_loop v refs (st ++ [i]) (acc ++ [length st])) as [st' x]. destruct IH as (new & -> & K).
    exists (i :: new). rewrite <- app_assoc. split; auto. destruct x as [r|e]; [|rewrite K; reflexivity].
    destruct K as [K1 K2]. rewrite K1. split; [reflexivity|]. rewrite K2, app_length, <- app_assoc. cbn [length seq app]. do 3 f_equal. lia.
Qed.
Lemma nth_split' {A} (l : list A) k x : nth_error l k = Some x -> exists l1 l2, l = l1 ++ x :: l2 /\ length l1 = k.
Proof. intros H. apply nth_error_split in H. destruct H as (l1 & l2 & -> & L). eauto. Qed.
Lemma lset_mid {A} (l1 : list A) x l2 y : lset (l1 ++ x :: l2) (length l1) y = l1 ++ y :: l2.
Proof. induction l1; cbn; congruence. Qed.
Lemma nth_mid {A} (l1 : list A) x l2 : nth_error (l1 ++ x :: l2) (length l1) = Some x.
Proof. induction l1; cbn; auto. Qed.
Lemma see_ext {A} (st st' : list (ginstr A)) c : (forall a, In a (o_refs c) -> sget st' a = sget st a) -> see st' c = see st c.
Proof. intros H. unfold see. f_equal. apply map_ext_in. auto. Qed.
Lemma see_objs_ext {A} (st st' : list (ginstr A)) os : (forall a, In a (concat (map o_refs os)) -> sget st' a = sget st a) -> map (see st') os = map (see st) os.
Proof.
  intros H. apply map_ext_in. intros c Hc. apply see_ext. intros a Ha. apply H. apply in_concat. exists (o_refs c). split; auto. apply in_map; auto.
Qed.
Lemma hinv_init {A} : hinv (@Heap A [] []).
Proof. split; [constructor|intros a []]. Qed.
Lemma nd_r {A} (a b : list A) : NoDup (a ++ b) -> NoDup b.
Proof. induction a; cbn; auto. intros H; inversion H; auto. Qed.
Lemma nd_l {A} (a b : list A) : NoDup (a ++ b) -> NoDup a.
Proof. induction a; cbn; intros H; [constructor|]. inversion H; subst. constructor; auto. intros K. apply H2. apply in_or_app; auto. Qed.
Lemma hstep_sim {A} (h : heap A) (o : cop A) : hinv h ->
  hinv (fst (hstep h o)) /\ vstep (see_all h) o = (see_all (fst (hstep h o)), snd (hstep h o)).
Proof.
  destruct h as [st os]. intros [N B]. unfold see_all. cbn [h_store h_objs] in *.
  assert (NE : forall k, nth_error (map (see st) os) k = option_map (see st) (nth_error os k)) by (intros; apply nth_error_map).
  destruct o as [w|k i|k v|k v]; cbn [hstep vstep h_store h_objs].
  - cbn [fst snd h_store h_objs]. split.
    + split; cbn [h_store h_objs]; rewrite map_app, concat_app; cbn; rewrite app_nil_r; auto.
    + rewrite map_app. reflexivity.
  - rewrite NE. destruct (nth_error os k) as [c|] eqn:E; cbn [option_map]; [|split; [split|]; auto].
    unfold gadd. change (g_active (see st c)) with (o_active c). destruct (gadd_ok (o_active c) i); [|split; [split|]; auto].
    apply nth_split' in E. destruct E as (o1 & o2 & -> & <-). cbn [fst snd h_store h_objs]. rewrite lset_mid.
    rewrite map_app, concat_app in N, B. cbn [map concat] in N, B.
    assert (P : Permutation (concat (map o_refs (o1 ++ Obj (o_width c) (o_refs c ++ [length st]) (gactive (o_active c) i) :: o2)))
                  (length st :: concat (map o_refs o1) ++ o_refs c ++ concat (map o_refs o2))).
    { rewrite map_app, concat_app. cbn [map concat o_refs]. rewrite <- app_assoc. cbn [app].
      rewrite (app_assoc (concat (map o_refs o1)) (o_refs c)). rewrite app_assoc. symmetry. apply Permutation_middle. }
    split.
    + split; cbn [h_store h_objs].
      * eapply Permutation_NoDup; [symmetry; exact P|]. constructor; auto. intros K. apply B in K. lia.
      * intros a Ha. eapply Permutation_in in Ha; [|exact P]. rewrite app_length. cbn. destruct Ha as [<-|Ha]; [lia|]. specialize (B a Ha). lia.
    + f_equal. rewrite !map_app. cbn [map]. rewrite <- (map_length (see st) o1), lset_mid.
      assert (X1 : forall os', incl (concat (map o_refs os')) (concat (map o_refs o1) ++ o_refs c ++ concat (map o_refs o2)) -> map (see (st ++ [i])) os' = map (see st) os').
      { intros os' I. apply see_objs_ext. intros a Ha. apply sget_app. apply B. apply I. auto. }
      rewrite X1 by (intros a; rewrite !in_app_iff; auto). rewrite X1 by (intros a; rewrite !in_app_iff; auto).
      f_equal. f_equal. unfold see. cbn [o_width o_refs o_active g_width g_instr]. f_equal. rewrite map_app. cbn [map]. f_equal.
      * apply map_ext_in. intros a Ha. symmetry. apply sget_app, B. rewrite !in_app_iff. auto.
      * f_equal. unfold sget. rewrite app_nth2, Nat.sub_diag by lia. reflexivity.
  - rewrite NE. destruct (nth_error os k) as [c|] eqn:E; cbn [option_map]; [|split; [split|]; auto].
    assert (BC : forall a, In a (o_refs c) -> a < length st).
    { intros a Ha. apply B. apply in_concat. exists (o_refs c). split; auto. apply in_map. eapply nth_error_In; eauto. }
    pose proof (copy_spec v (o_refs c) st [] BC) as K. destruct (copy_loop v (o_refs c) st []) as [st' x]. destruct K as (new & -> & K).
    assert (X : map (see (st ++ new)) os = map (see st) os) by (apply see_objs_ext; intros a Ha; apply sget_app, B; auto).
    unfold gvisit. change (g_instr (see st c)) with (map (sget st) (o_refs c)). change (g_width (see st c)) with (o_width c).
    destruct x as [r|e]; cbn [fst snd h_store h_objs app].
    + destruct K as [K ->]. rewrite K. cbn [rbind app]. split.
      * split; cbn [h_store h_objs]; rewrite map_app, concat_app; cbn [map concat o_refs]; rewrite app_nil_r.
        -- apply Layer.NoDup_app; auto using seq_NoDup. intros a Ha Hb. apply B in Ha. apply in_seq in Hb. lia.
        -- intros a Ha. rewrite app_length. apply in_app_or in Ha. destruct Ha as [Ha|Ha]; [apply B in Ha; lia|apply in_seq in Ha; lia].
      * rewrite map_app. cbn [map]. rewrite X. do 2 f_equal. f_equal. unfold see. cbn [o_width o_refs o_active]. f_equal.
        clear. revert st. induction new as [|i new IH]; intros st; cbn [length seq map]; auto. f_equal.
        -- unfold sget. rewrite app_nth2, Nat.sub_diag by lia. reflexivity.
        -- specialize (IH (st ++ [i])). rewrite app_length, <- app_assoc in IH. cbn [length app] in IH. rewrite Nat.add_1_r in IH. exact IH.
    + rewrite K. cbn [rbind]. split; [|rewrite X; reflexivity]. split; cbn [h_store h_objs]; auto. intros a Ha. rewrite app_length. specialize (B a Ha). lia.
  - rewrite NE. destruct (nth_error os k) as [c|] eqn:E; cbn [option_map]; [|split; [split|]; auto].
    apply nth_split' in E. destruct E as (o1 & o2 & -> & <-).
    pose proof N as N'. pose proof B as B'. rewrite map_app, concat_app in N', B'. cbn [map concat] in N', B'.
    assert (NC : NoDup (o_refs c)) by (apply nd_r in N'; apply nd_l in N'; auto).
    pose proof (inplace_spec v (o_refs c) st NC (fun a Ha => B' a (in_or_app _ _ _ (or_intror (in_or_app _ _ _ (or_introl Ha)))))) as K.
    change (g_instr (see st c)) with (map (sget st) (o_refs c)). destruct (inplace_loop v (o_refs c) st) as [st' e]. destruct K as (L & V & O).
    rewrite V. cbn [fst snd h_store h_objs]. split; [split; cbn [h_store h_objs]; auto; intros a Ha; rewrite L; auto|].
    f_equal. rewrite !map_app. cbn [map]. rewrite <- (map_length (see st) o1), lset_mid.
    assert (D1 : forall a, In a (concat (map o_refs o1)) -> ~ In a (o_refs c)).
    { intros a Ha Hc. clear - N' Ha Hc. induction (concat (map o_refs o1)) as [|x l IH]; [destruct Ha|]. cbn [app] in N'. inversion N'; subst. destruct Ha as [->|Ha]; [apply H1; rewrite !in_app_iff; auto|auto]. }
    assert (D2 : forall a, In a (concat (map o_refs o2)) -> ~ In a (o_refs c)).
    { intros a Ha Hc. apply nd_r in N'. clear - N' Ha Hc. induction (o_refs c) as [|x l IH]; [destruct Hc|]. cbn [app] in N'. inversion N'; subst. destruct Hc as [->|Hc]; [apply H1; rewrite !in_app_iff; auto|auto]. }
    rewrite (see_objs_ext st st' o1) by (intros a Ha; apply O, D1; auto). rewrite (see_objs_ext st st' o2) by (intros a Ha; apply O, D2; auto). reflexivity.
Qed.
Lemma run_sim {A} (ops : list (cop A)) : forall h, hinv h ->
  run_ops vstep (see_all h) ops = (see_all (fst (run_ops hstep h ops)), snd (run_ops hstep h ops)).
Proof.
  induction ops as [|o ops IH]; intros h I; cbn [run_ops]; auto.
  destruct (hstep_sim h o I) as [I' S]. rewrite S. destruct (hstep h o) as [h1 e]. cbn [fst snd] in *. rewrite IH by auto.
  destruct (run_ops hstep h1 ops) as [h2 es]. reflexivity.
Qed.
