(** Model of graphix/circ_ext/extraction.py PauliString, and the signed Pauli
    operators that strings and tableau rows stand for. *)
From Coq Require Import Reals Lra Arith List Bool Lia Permutation FunctionalExtensionality Ascii.
From Verif Require Import Cplx Mat2 NSet QState Fundamentals Clifford Measure Pattern Statevec Density Circuit.
Import ListNotations.
Local Open Scope list_scope.
Local Open Scope C_scope.

(** extraction.py:76-98 PauliString: dimension, axes (insertion-ordered dict), sign *)
Record pstring := PStr { ps_dim : nat; ps_axes : dict axis; ps_sign : sign }.

(** * Specification: the operator of a Pauli string *)
(** sign * product of the Pauli matrices on their qubits *)
Definition axes_op (l : list (nat * axis)) (psi : state) : state :=
  fold_right (fun e p => app_op (OApp1 (axis_mat (snd e)) (fst e)) p) psi l.
Definition ps_op (p : pstring) (psi : state) : state := cscale (sign_C (ps_sign p)) (axes_op (ps_axes p) psi).
(** the keys of a dict are distinct; the qubits are in range *)
Definition ps_ok (p : pstring) : Prop := NoDup (dkeys (ps_axes p)) /\ forall q, In q (dkeys (ps_axes p)) -> (q < ps_dim p)%nat.
(** the [==] of the dataclass: dicts are compared as maps *)
Definition ps_eq (p q : pstring) : Prop :=
  ps_dim p = ps_dim q /\ ps_sign p = ps_sign q /\ forall k, dget (ps_axes p) k = dget (ps_axes q) k.

(** * Strings *)
Definition axis_char (a : axis) : ascii := match a with AX => "X" | AY => "Y" | AZ => "Z" end%char.
Definition ixyz_char (a : option axis) : ascii := match a with Some a => axis_char a | None => "I"%char end.
(** one operator character; [None] when it is not one of X, Y, Z, I *)
Definition char_ixyz (c : ascii) : option (option axis) :=
  if Ascii.eqb c "X" then Some (Some AX) else if Ascii.eqb c "Y" then Some (Some AY)
  else if Ascii.eqb c "Z" then Some (Some AZ) else if Ascii.eqb c "I" then Some None else None.
(** the dict {i: op for i, op in enumerate(ops, start=k) if op is not I} *)
Fixpoint axes_of (k : nat) (l : list (option axis)) : dict axis :=
  match l with [] => [] | Some a :: l' => (k, a) :: axes_of (S k) l' | None :: l' => axes_of (S k) l' end.
(** extraction.py:147-149: the set of invalid characters is empty, or ValueError *)
Fixpoint ops_of (l : list ascii) : res (list (option axis)) :=
  match l with
  | [] => Ok []
  | c :: l' => match char_ixyz c with Some a => do r <- ops_of l'; Ok (a :: r) | None => Err EValue end
  end.
(** extraction.py:100-155 from_str; a str is the list of its characters *)
Definition from_str (s : list ascii) : res pstring :=
  match s with
  | [] => Ok (PStr 0 [] Plus)
  | c :: l =>
    do (sg, chars) <-
      (if Ascii.eqb c "+" then Ok (Plus, l) else if Ascii.eqb c "-" then Ok (Minus, l)
       else match char_ixyz c with Some _ => Ok (Plus, c :: l) | None => Err EValue end);
    do ops <- ops_of chars;
    Ok (PStr (length ops) (axes_of 0 ops) sg)
  end.
(** fundamentals.py:76-80 Sign.__str__ *)
Definition sign_char (s : sign) : ascii := match s with Plus => "+" | Minus => "-" end%char.
(** extraction.py:161-168 __str__ *)
Definition ps_str (p : pstring) : list ascii :=
  sign_char (ps_sign p) :: map (fun q => ixyz_char (dget (ps_axes p) q)) (range (ps_dim p)).

(** * Tableaux *)
(** assignment [l[i] = b] on an array *)
Fixpoint lset (l : list bool) (i : nat) (b : bool) : list bool :=
  match l, i with [], _ => [] | _ :: l', O => b :: l' | x :: l', S i' => x :: lset l' i' b end.
(** the same with the bounds check of numpy *)
Definition tset (l : list bool) (i : nat) (b : bool) : res (list bool) := if (i <? length l)%nat then Ok (lset l i b) else Err EIndex.
(** extraction.py:221-227: the bit pair of a qubit *)
Definition xz_axis (x z : bool) : option axis :=
  match x, z with true, false => Some AX | false, true => Some AZ | true, true => Some AY | false, false => None end.
(** extraction.py:170-238 from_tableau; one-dimensional arrays only *)
Definition from_tableau (tab : list bool) : res pstring :=
  if Nat.even (length tab) then Err EValue
  else
    let dim := (length tab / 2)%nat in
    Ok (PStr dim (axes_of 0 (map (fun i => xz_axis (nth i tab false) (nth (dim + i) tab false)) (range dim)))
             (minus_if (nth (length tab - 1) tab false))).
Definition ax_x (a : axis) : bool := match a with AX | AY => true | AZ => false end.
Definition ax_z (a : axis) : bool := match a with AY | AZ => true | AX => false end.
(** extraction.py:240-279 to_tableau *)
Definition to_tableau (p : pstring) : res (list bool) :=
  do t <- rfold (fun t e => do t <- (if ax_x (snd e) then tset t (fst e) true else Ok t);
                            if ax_z (snd e) then tset t (fst e + ps_dim p) true else Ok t)
            (ps_axes p) (repeat false (2 * ps_dim p + 1));
  match ps_sign p with Minus => tset t (2 * ps_dim p) true | Plus => Ok t end.

(** * Array lemmas *)
Lemma lset_len l : forall i b, length (lset l i b) = length l.
Proof. induction l; intros [|i] b; simpl; auto. Qed.
Lemma lset_nth l : forall i b j, nth j (lset l i b) false = if (j =? i)%nat && (i <? length l)%nat then b else nth j l false.
Proof.
  induction l as [|x l IH]; intros i b j.
  - simpl. destruct i, j; auto; simpl; rewrite ?andb_false_r; auto.
  - destruct i as [|i], j as [|j]; try reflexivity. cbn [lset nth length]. rewrite IH. reflexivity.
Qed.
Lemma axes_of_get l : forall k j, dget (axes_of k l) j = if (k <=? j)%nat && (j <? k + length l)%nat then nth (j - k) l None else None.
Proof.
  induction l as [|o l IH]; intros k j; simpl.
  - rewrite Nat.add_0_r. destruct (Nat.leb_spec k j), (Nat.ltb_spec j k); simpl; auto; lia.
  - assert (G : dget (axes_of (S k) l) j = if (k <=? j)%nat && (j <? k + S (length l))%nat then
       match (j - k)%nat with O => None | S m => nth m l None end else None).
    { rewrite IH. destruct (Nat.leb_spec k j), (Nat.leb_spec (S k) j), (Nat.ltb_spec j (S k + length l)), (Nat.ltb_spec j (k + S (length l))); simpl; auto; try lia.
      all: destruct (j - k)%nat eqn:E; auto; try lia; f_equal; lia. }
    destruct o as [a|]; [simpl; destruct (Nat.eqb_spec k j) as [<-|N]|].
    + rewrite Nat.leb_refl, Nat.sub_diag. destruct (Nat.ltb_spec k (k + S (length l))); simpl; auto; lia.
    + rewrite G. destruct ((k <=? j)%nat && (j <? k + S (length l))%nat) eqn:E; auto.
      apply andb_prop in E. destruct E as [E _]. apply Nat.leb_le in E. destruct (j - k)%nat eqn:E2; auto; lia.
    + rewrite G. destruct ((k <=? j)%nat && (j <? k + S (length l))%nat) eqn:E; auto.
Qed.
Lemma axes_of_keys l : forall k j, In j (dkeys (axes_of k l)) -> (k <= j < k + length l)%nat.
Proof.
  induction l as [|o l IH]; intros k j; simpl; [tauto|]. destruct o; simpl; [intros [->|H]; [lia|]|intros H]; apply IH in H; lia.
Qed.
Lemma axes_of_nodup l : forall k, NoDup (dkeys (axes_of k l)).
Proof.
  induction l as [|o l IH]; intros k; simpl; [constructor|]. destruct o; simpl; auto. constructor; auto.
  intros H. apply axes_of_keys in H. lia.
Qed.
Lemma axes_of_get0 l j : dget (axes_of 0 l) j = nth j l None.
Proof.
  rewrite axes_of_get, Nat.sub_0_r. simpl. destruct (Nat.ltb_spec j (length l)); auto. rewrite nth_overflow; auto.
Qed.
Lemma range_nth k n : (k < n)%nat -> nth k (range n) 0%nat = k.
Proof. intros. unfold range. rewrite seq_nth; auto. Qed.
Lemma map_range_nth {A} (f : nat -> A) n k d : (k < n)%nat -> nth k (map f (range n)) d = f k.
Proof. intros H. rewrite (nth_indep _ d (f 0%nat)) by (rewrite map_length; unfold range; rewrite seq_length; auto). rewrite map_nth, range_nth; auto. Qed.

(** the bits of a string *)
Definition ps_x (p : pstring) (q : nat) : bool := match dget (ps_axes p) q with Some a => ax_x a | None => false end.
Definition ps_z (p : pstring) (q : nat) : bool := match dget (ps_axes p) q with Some a => ax_z a | None => false end.
Definition ps_s (p : pstring) : bool := match ps_sign p with Plus => false | Minus => true end.

(** contents of [to_tableau] *)
Lemma to_tableau_spec p : ps_ok p -> exists t, to_tableau p = Ok t /\ length t = (2 * ps_dim p + 1)%nat /\
  (forall q, (q < ps_dim p)%nat -> nth q t false = ps_x p q) /\
  (forall q, (q < ps_dim p)%nat -> nth (q + ps_dim p) t false = ps_z p q) /\
  nth (2 * ps_dim p) t false = ps_s p.
Proof.
  intros [ND LT]. unfold to_tableau. set (n := ps_dim p) in *. set (F := fun t e => _).
  assert (G : forall l t, (forall q, In q (dkeys l) -> (q < n)%nat) -> NoDup (dkeys l) -> length t = (2 * n + 1)%nat ->
     exists t', rfold F l t = Ok t' /\ length t' = (2 * n + 1)%nat /\
       (forall q, (q < n)%nat -> nth q t' false = match dget l q with Some a => ax_x a || nth q t false | None => nth q t false end) /\
       (forall q, (q < n)%nat -> nth (q + n) t' false = match dget l q with Some a => ax_z a || nth (q + n) t false | None => nth (q + n) t false end) /\
       nth (2 * n) t' false = nth (2 * n) t false).
  { induction l as [|[k a] l IH]; intros t L N Len.
    - exists t. simpl. auto.
    - simpl in N. inversion N as [|? ? N1 N2]; subst.
      assert (Kn : (k < n)%nat) by (apply L; simpl; auto).
      assert (S1 : exists t1, F t (k, a) = Ok t1 /\ length t1 = (2 * n + 1)%nat /\
         (forall j, nth j t1 false = if (j =? k)%nat then ax_x a || nth j t false else if (j =? k + n)%nat then ax_z a || nth j t false else nth j t false)).
      { unfold F. cbn [fst snd]. unfold tset.
        assert (E1 : forall u : list bool, length u = (2 * n + 1)%nat -> (k <? length u)%nat = true) by (intros u ->; apply Nat.ltb_lt; lia).
        assert (E2 : forall u : list bool, length u = (2 * n + 1)%nat -> (k + n <? length u)%nat = true) by (intros u ->; apply Nat.ltb_lt; lia).
        destruct a; cbn [ax_x ax_z]; rewrite ?E1 by auto; cbn [rbind]; rewrite ?E2 by (rewrite ?lset_len; auto); eexists; (split; [reflexivity|]); rewrite ?lset_len; (split; [auto|]); intros j;
        rewrite ?lset_nth, ?lset_len, ?E1, ?E2 by auto;
        destruct (Nat.eqb_spec j k), (Nat.eqb_spec j (k + n)); simpl; auto; try lia. }
      destruct S1 as (t1 & E & Len1 & C1). cbn [rfold]. rewrite E.
      destruct (IH t1) as (t' & E' & Len' & A & B & D); auto. { intros q Hq. apply L. simpl. auto. }
      exists t'. split; [auto|]. split; [auto|]. split; [|split].
      + intros q Hq. rewrite A, C1 by auto. simpl. rewrite (Nat.eqb_sym k q). destruct (Nat.eqb_spec q k) as [->|Nk].
        * assert (dget l k = None) as -> by (apply dget_None; auto). auto.
        * destruct (Nat.eqb_spec q (k + n)); [lia|]. auto.
      + intros q Hq. rewrite B, C1 by auto. simpl. destruct (Nat.eqb_spec (q + n) k); [lia|]. rewrite (Nat.eqb_sym k q). destruct (Nat.eqb_spec q k) as [->|Nk].
        * assert (dget l k = None) as -> by (apply dget_None; auto). rewrite Nat.eqb_refl. auto.
        * destruct (Nat.eqb_spec (q + n) (k + n)); [lia|]. auto.
      + rewrite D, C1. destruct (Nat.eqb_spec (2 * n) k); [lia|]. destruct (Nat.eqb_spec (2 * n) (k + n)); [lia|]. auto. }
  destruct (G (ps_axes p) (repeat false (2 * n + 1)) LT ND (repeat_length _ _)) as (t & E & Len & A & B & D).
  rewrite E. cbn [rbind]. rewrite nth_repeat in D.
  assert (A' : forall q, (q < n)%nat -> nth q t false = ps_x p q).
  { intros q Hq. rewrite A by auto. unfold ps_x. rewrite nth_repeat. destruct (dget (ps_axes p) q) as [a|]; auto. apply orb_false_r. }
  assert (B' : forall q, (q < n)%nat -> nth (q + n) t false = ps_z p q).
  { intros q Hq. rewrite B by auto. unfold ps_z. rewrite nth_repeat. destruct (dget (ps_axes p) q) as [a|]; auto. apply orb_false_r. }
  unfold ps_s. destruct (ps_sign p).
  - exists t. auto.
  - unfold tset. rewrite Len. assert ((2 * n <? 2 * n + 1)%nat = true) as -> by (apply Nat.ltb_lt; lia).
    eexists. split; [reflexivity|]. rewrite lset_len. split; [auto|].
    assert (L : forall j, nth j (lset t (2 * n) true) false = if (j =? 2 * n)%nat then true else nth j t false).
    { intros j. rewrite lset_nth, Len. assert ((2 * n <? 2 * n + 1)%nat = true) as -> by (apply Nat.ltb_lt; lia). rewrite andb_true_r. auto. }
    split; [|split].
    + intros q Hq. rewrite L. destruct (Nat.eqb_spec q (2 * n)); [lia|]. auto.
    + intros q Hq. rewrite L. destruct (Nat.eqb_spec (q + n) (2 * n)); [lia|]. auto.
    + rewrite L, Nat.eqb_refl. auto.
Qed.
