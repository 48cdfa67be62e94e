(** Model of graphix/_linalg.py: linear algebra over GF(2).

    A [MatGF2] of shape (m, n) is a record holding the shape and the list of
    its rows, each a list of bits.  Simplifications: entries are bits (the code
    stores them in uint8 arrays and only ever tests for 1 and xors), in-place
    updates are modelled as returning the new matrix, and inner loops that
    copy / xor / swap a whole row entry by entry are one row operation. *)
From Coq Require Import Arith List Bool Lia.
Import ListNotations.

Record mat := Mat { mrows : nat; mcols : nat; mdata : list (list bool) }.

(** * Specification vocabulary: entries, sums over GF(2), products *)
(** Entry (i, j) of a list of rows. *)
Definition ent (A : list (list bool)) (i j : nat) : bool := nth j (nth i A []) false.
(** Sum over GF(2) of [f 0 .. f (n-1)]. *)
Fixpoint xsum (n : nat) (f : nat -> bool) : bool :=
  match n with O => false | S n' => xorb (xsum n' f) (f n') end.
Definition delta (i j : nat) : bool := (i =? j)%nat.
(** Well-shaped data. *)
Definition shaped (m n : nat) (A : list (list bool)) : Prop :=
  length A = m /\ forall r, In r A -> length r = n.
Definition mat_ok (A : mat) : Prop := shaped (mrows A) (mcols A) (mdata A).
(** The vector [v] is the combination of the m rows of [A] with coefficients [c]. *)
Definition comb (m : nat) (c : nat -> bool) (A : list (list bool)) (j : nat) : bool :=
  xsum m (fun k => c k && ent A k j).
(** The rows of [A] are linearly independent. *)
Definition indep (m n : nat) (A : list (list bool)) : Prop :=
  forall c, (forall j, j < n -> comb m c A j = false) -> forall k, k < m -> c k = false.
(** [v] is in the row space of [A]. *)
Definition in_rowspace (m n : nat) (A : list (list bool)) (v : nat -> bool) : Prop :=
  exists c, forall j, j < n -> v j = comb m c A j.
(** [j] is the column of the leading 1 of row [i] *)
Definition leads (A : list (list bool)) (i j : nat) : Prop :=
  ent A i j = true /\ forall j', j' < j -> ent A i j' = false.
(** Row echelon form on the first [nc] columns: below a row with leading one in
    column j, nothing at or before j; zero rows at the bottom. *)
Definition echelon (m nc : nat) (A : list (list bool)) : Prop :=
  forall i i' j', i < i' -> i' < m -> j' < nc -> ent A i' j' = true -> exists j, j < j' /\ leads A i j.
(** Reduced: a leading one is alone in its column. *)
Definition reduced (m nc : nat) (A : list (list bool)) : Prop :=
  forall i j i', i < m -> i' < m -> i' <> i -> j < nc -> leads A i j -> ent A i' j = false.

(** * The code *)
Definition row (A : list (list bool)) (i : nat) : list bool := nth i A [].
(** assignment of a row *)
Fixpoint upd (i : nat) (r : list bool) (A : list (list bool)) : list (list bool) :=
  match A, i with
  | [], _ => []
  | _ :: A', O => r :: A'
  | x :: A', S i' => x :: upd i' r A'
  end.
(** xor of two rows *)
Fixpoint rxor (a b : list bool) : list bool :=
  match a, b with x :: a', y :: b' => xorb x y :: rxor a' b' | _, _ => [] end.
(** [.any()] on the first [n] entries of a row *)
Definition any_row (n : nat) (r : list bool) : bool := existsb (fun b => b) (firstn n r).
(** _linalg.py:285-288: swap of rows i and p, [if i != p] *)
Definition swap_rows (i p : nat) (A : list (list bool)) : list (list bool) :=
  if (i =? p)%nat then A else upd p (row A i) (upd i (row A p) A).
(** _linalg.py:290-301: zeros below (and above when [full]) the pivot (p, j) *)
Definition clear_col (full : bool) (m p j : nat) (A : list (list bool)) : list (list bool) :=
  fold_left (fun A k => if ent A k j && negb (k =? p)%nat then upd k (rxor (row A k) (row A p)) A else A)
    (if full then seq 0 m else seq (S p) (m - S p)) A.
(** _linalg.py:242-307 _elimination_jit: loop over the columns [cols] from pivot row [p] *)
Fixpoint elim_loop (full : bool) (m : nat) (cols : list nat) (p : nat) (A : list (list bool)) : list (list bool) :=
  match cols with
  | [] => A
  | j :: cols' =>
      match find (fun i => ent A i j) (seq p (m - p)) with
      | None => elim_loop full m cols' p A
      | Some i =>
          let A' := clear_col full m p j (swap_rows i p A) in
          if (S p =? m)%nat then A' else elim_loop full m cols' (S p) A'
      end
  end.
Definition elimination (full : bool) (ncols : nat) (A : mat) : mat :=
  Mat (mrows A) (mcols A) (elim_loop full (mrows A) (seq 0 ncols) 0 (mdata A)).
(** _linalg.py:135-154 gauss_elimination, 156-175 row_reduction *)
Definition gauss_elimination (ncols : nat) (A : mat) : mat := elimination false ncols A.
Definition row_reduction (ncols : nat) (A : mat) : mat := elimination true ncols A.
(** _linalg.py:67-76 rank *)
Definition rank (A : mat) : nat :=
  length (filter (any_row (mcols A)) (mdata (row_reduction (mcols A) A))).
(** np.eye, np.hstack, transpose, np.zeros *)
Definition tab {X} (n : nat) (f : nat -> X) : list X := map f (seq 0 n).
Definition eye (m : nat) : list (list bool) := tab m (fun i => tab m (fun j => delta i j)).
Definition hstack (A B : list (list bool)) : list (list bool) := map (fun p => fst p ++ snd p) (combine A B).
Definition transpose (A : mat) : mat :=
  Mat (mcols A) (mrows A) (tab (mcols A) (fun j => tab (mrows A) (fun i => ent (mdata A) i j))).
(** [np.flatnonzero(row)]: the indices of the ones *)
Definition flatnonzero (r : list bool) : list nat := filter (fun j => nth j r false) (seq 0 (length r)).
(** _linalg.py:78-112 right_inverse; [np.flatnonzero(row)[0]] is modelled with
    [hd 0]: the theorem below shows that the list is never empty there. *)
Definition right_inverse (A : mat) : option mat :=
  let m := mrows A in let n := mcols A in
  if (n <? m)%nat then None else
  let red := row_reduction n (Mat m (n + m) (hstack (mdata A) (eye m))) in
  if negb (m =? length (filter (any_row n) (mdata red)))%nat then None else
  Some (Mat n m (fold_left (fun R i => upd (hd 0 (flatnonzero (row (mdata red) i))) (skipn n (row (mdata red) i)) R)
                   (seq 0 m) (tab n (fun _ => tab m (fun _ => false))))).
(** _linalg.py:114-133 null_space *)
Definition null_space (A : mat) : mat :=
  let m := mrows A in let n := mcols A in
  let ref := gauss_elimination m (Mat n (m + n) (hstack (mdata (transpose A)) (eye n))) in
  let rows := map (skipn m) (filter (fun r => negb (any_row m r)) (mdata ref)) in
  Mat (length rows) n rows.
(** _linalg.py:310-327 _mat_mul_jit *)
Definition mat_mul (A B : mat) : mat :=
  Mat (mrows A) (mcols B)
    (map (fun r => fold_left (fun acc k => if nth k r false then rxor acc (row (mdata B) k) else acc)
                     (seq 0 (mcols A)) (tab (mcols B) (fun _ => false))) (mdata A)).
(** _linalg.py:200-239 _solve_f2_linear_system_jit: index of the first zero row *)
Fixpoint first_zero (A : list (list bool)) : nat :=
  match A with [] => 0 | r :: A' => if existsb (fun b => b) r then S (first_zero A') else 0 end.
Fixpoint updb (i : nat) (b : bool) (x : list bool) : list bool :=
  match x, i with [], _ => [] | _ :: x', O => b :: x' | y :: x', S i' => y :: updb i' b x' end.
(** one step of the back substitution, row i *)
Definition solve_step (n : nat) (A : list (list bool)) (b : list bool) (x : list bool) (i : nat) : list bool :=
  let r := row A i in
  let pivot := hd 0 (flatnonzero r) in
  let acc := fold_left (fun acc k => if nth k r false then xorb acc (nth k x false) else acc)
               (seq pivot (n - pivot)) false in
  updb pivot (xorb (nth i b false) acc) x.
Definition solve_f2 (A : mat) (b : list bool) : list bool :=
  fold_left (solve_step (mcols A) (mdata A) b) (rev (seq 0 (first_zero (mdata A)))) (tab (mcols A) (fun _ => false)).

(** * Sums *)
Lemma xsum_ext n f g : (forall k, k < n -> f k = g k) -> xsum n f = xsum n g.
Proof. induction n; simpl; intros H; auto. rewrite IHn by (intros; apply H; lia). rewrite H by lia. auto. Qed.
Lemma xsum_0 n f : (forall k, k < n -> f k = false) -> xsum n f = false.
Proof. induction n; simpl; intros H; auto. rewrite IHn by (intros; apply H; lia). rewrite H by lia. auto. Qed.
Lemma xsum_xor n f g : xsum n (fun k => xorb (f k) (g k)) = xorb (xsum n f) (xsum n g).
Proof. induction n; simpl; auto. rewrite IHn. destruct (xsum n f), (xsum n g), (f n), (g n); auto. Qed.
Lemma xsum_and_l n b f : xsum n (fun k => b && f k) = b && xsum n f.
Proof. induction n; simpl. - destruct b; auto. - rewrite IHn. destruct b; auto. Qed.
Lemma xsum_and_r n b f : xsum n (fun k => f k && b) = xsum n f && b.
Proof. induction n; simpl; auto. rewrite IHn. destruct b, (xsum n f), (f n); auto. Qed.
Lemma xsum_swap m n f : xsum m (fun i => xsum n (fun j => f i j)) = xsum n (fun j => xsum m (fun i => f i j)).
Proof.
  induction m; simpl. - symmetry. apply xsum_0; auto.
  - rewrite IHm, <- xsum_xor. auto.
Qed.
Lemma xsum_single n k f : k < n -> (forall i, i < n -> i <> k -> f i = false) -> xsum n f = f k.
Proof.
  induction n; simpl; intros Hk H; [lia|].
  destruct (Nat.eq_dec k n).
  - subst. rewrite xsum_0; [destruct (f n); auto|]. intros; apply H; lia.
  - rewrite IHn, (H n) by (auto; lia || intros; apply H; lia). destruct (f k); auto.
Qed.
Lemma xsum_delta_l n k f : k < n -> xsum n (fun i => delta k i && f i) = f k.
Proof.
  intros H. rewrite (xsum_single n k); auto.
  - unfold delta. rewrite Nat.eqb_refl. auto.
  - intros i _ Hi. unfold delta. destruct (Nat.eqb_spec k i); auto; congruence.
Qed.
Lemma xsum_delta_r n k f : k < n -> xsum n (fun i => f i && delta i k) = f k.
Proof.
  intros H. rewrite (xsum_single n k); auto.
  - unfold delta. rewrite Nat.eqb_refl. destruct (f k); auto.
  - intros i _ Hi. unfold delta. destruct (Nat.eqb_spec i k); [congruence|]. destruct (f i); auto.
Qed.
Lemma xsum_true n f : xsum n f = true -> exists k, k < n /\ f k = true.
Proof.
  induction n; simpl; intros H; [discriminate|].
  destruct (f n) eqn:E; [exists n; auto|]. destruct (xsum n f) eqn:E2; [|discriminate].
  destruct (IHn eq_refl) as (k & ? & ?). exists k; auto.
Qed.
(** the contribution of one index *)
Lemma xsum_change n k f g : k < n -> (forall i, i < n -> i <> k -> f i = g i) ->
  xorb (xsum n f) (xsum n g) = xorb (f k) (g k).
Proof.
  intros Hk H. rewrite <- xsum_xor. rewrite (xsum_single n k); auto.
  intros i Hi Hn. rewrite H by auto. destruct (g i); auto.
Qed.

(** * Entries of the model's operations *)
Lemma nth_tab {X} n (f : nat -> X) i d : i < n -> nth i (tab n f) d = f i.
Proof. intros H. unfold tab. rewrite nth_indep with (d' := f 0); [|rewrite map_length, seq_length; auto].
  rewrite map_nth, seq_nth; auto. Qed.
Lemma nth_tab_out {X} n (f : nat -> X) i d : n <= i -> nth i (tab n f) d = d.
Proof. intros. apply nth_overflow. unfold tab. rewrite map_length, seq_length. auto. Qed.
Lemma tab_length {X} n (f : nat -> X) : length (tab n f) = n.
Proof. unfold tab. rewrite map_length, seq_length. auto. Qed.
Lemma ent_tab m n f i j : i < m -> j < n -> ent (tab m (fun i => tab n (fun j => f i j))) i j = f i j.
Proof. intros. unfold ent. rewrite nth_tab by auto. apply nth_tab; auto. Qed.
Lemma shaped_tab m n f : shaped m n (tab m (fun i => tab n (fun j => f i j))).
Proof.
  split; [apply tab_length|]. intros r Hr. apply in_map_iff in Hr. destruct Hr as (i & <- & _). apply tab_length.
Qed.
Lemma ent_eye m i j : i < m -> j < m -> ent (eye m) i j = delta i j.
Proof. intros. unfold eye. rewrite ent_tab; auto. Qed.
Lemma shaped_row m n A i : shaped m n A -> i < m -> length (row A i) = n.
Proof. intros [HL H] Hi. apply H. apply nth_In. lia. Qed.
Lemma upd_length i r A : length (upd i r A) = length A.
Proof. revert i; induction A; destruct i; simpl; auto. Qed.
Lemma row_upd i r A k : i < length A -> row (upd i r A) k = if (k =? i)%nat then r else row A k.
Proof.
  unfold row. revert i k; induction A as [|a A IH]; intros i k H; simpl in H; [lia|].
  destruct i, k; simpl; auto. apply IH. lia.
Qed.
Lemma shaped_upd m n i r A : shaped m n A -> length r = n -> shaped m n (upd i r A).
Proof.
  intros [HL H] Hr. split. - rewrite upd_length. auto.
  - intros x. clear HL. revert i H; induction A as [|a A IH]; intros i H Hx.
    + destruct i; destruct Hx.
    + destruct i; simpl in Hx; destruct Hx as [<-|Hx]; auto.
      * apply H; right; auto.
      * apply H; left; auto.
      * apply IH with i; auto. intros; apply H; right; auto.
Qed.
Lemma rxor_length a b : length a = length b -> length (rxor a b) = length a.
Proof. revert b; induction a; destruct b; simpl; auto; intros; discriminate || (rewrite IHa; auto). Qed.
Lemma nth_rxor a b j : length a = length b -> nth j (rxor a b) false = xorb (nth j a false) (nth j b false).
Proof.
  revert b j; induction a; destruct b; simpl; intros j H; try discriminate.
  - destruct j; auto.
  - destruct j; auto.
Qed.
Lemma ent_row A i j : ent A i j = nth j (row A i) false. Proof. reflexivity. Qed.
Lemma mat_ext m n A B : shaped m n A -> shaped m n B ->
  (forall i j, i < m -> j < n -> ent A i j = ent B i j) -> A = B.
Proof.
  intros [LA HA] [LB HB] H. apply nth_ext with [] []; [congruence|].
  intros i Hi. assert (length (row A i) = n) by (apply HA, nth_In; auto).
  assert (length (row B i) = n) by (apply HB, nth_In; lia).
  apply nth_ext with false false; unfold row in *; [congruence|].
  intros j Hj. apply H; lia.
Qed.
Lemma any_row_spec n r : any_row n r = true <-> exists j, j < n /\ nth j r false = true.
Proof.
  unfold any_row. rewrite existsb_exists. split.
  - intros (b & Hb & ->). apply In_nth with (d := false) in Hb. destruct Hb as (j & Hj & E).
    rewrite firstn_length in Hj. exists j. split; [lia|]. rewrite <- E. clear E.
    revert j r Hj; induction n; intros j r Hj; [lia|]. destruct r; simpl in *; [lia|]. destruct j; auto. apply IHn. lia.
  - intros (j & Hj & E). exists true. split; auto.
    revert j r Hj E; induction n; intros j r Hj E; [lia|]. destruct r; simpl in *; [destruct j; discriminate|].
    destruct j; auto. right. apply IHn with j; auto. lia.
Qed.
Lemma any_row_false n r : any_row n r = false <-> forall j, j < n -> nth j r false = false.
Proof.
  split.
  - intros H j Hj. destruct (nth j r false) eqn:E; auto. assert (any_row n r = true); [|congruence].
    apply any_row_spec. eauto.
  - intros H. destruct (any_row n r) eqn:E; auto. apply any_row_spec in E. destruct E as (j & Hj & E).
    rewrite H in E; auto.
Qed.

(** * Row operations *)
(** adding row [p] to row [k] *)
Definition radd (k p : nat) (A : list (list bool)) := upd k (rxor (row A k) (row A p)) A.
Inductive rops (m n : nat) : list (list bool) -> list (list bool) -> Prop :=
| rops_refl A : rops m n A A
| rops_step A B k p : rops m n A B -> k < m -> p < m -> k <> p -> rops m n A (radd k p B).
Lemma rops_trans m n A B C : rops m n A B -> rops m n B C -> rops m n A C.
Proof. intros H1 H2. induction H2; auto. constructor; auto. Qed.
Lemma radd_shaped m n k p A : shaped m n A -> k < m -> p < m -> shaped m n (radd k p A).
Proof.
  intros H Hk Hp. assert (E1 := shaped_row m n A k H Hk). assert (E2 := shaped_row m n A p H Hp).
  apply shaped_upd; auto. rewrite rxor_length; congruence.
Qed.
Lemma rops_shaped m n A B : rops m n A B -> shaped m n A -> shaped m n B.
Proof. induction 1; auto. intros. apply radd_shaped; auto. Qed.
Lemma ent_radd m n k p A i j : shaped m n A -> k < m -> p < m ->
  ent (radd k p A) i j = if (i =? k)%nat then xorb (ent A k j) (ent A p j) else ent A i j.
Proof.
  intros HA Hk Hp. unfold radd. rewrite !ent_row, row_upd by (destruct HA; lia).
  destruct (Nat.eqb_spec i k); auto. subst. apply nth_rxor. rewrite !(shaped_row m n); auto.
Qed.
(** the coefficients of a combination, through a row operation *)
Definition cadd (k p : nat) (c : nat -> bool) : nat -> bool := fun i => if (i =? p)%nat then xorb (c p) (c k) else c i.
Lemma comb_radd m n k p A c j : shaped m n A -> k < m -> p < m -> k <> p ->
  comb m c (radd k p A) j = comb m (cadd k p c) A j.
Proof.
  intros HA Hk Hp Hkp. unfold comb.
  assert (E : xsum m (fun i => c i && ent (radd k p A) i j) = xorb (xsum m (fun i => c i && ent A i j)) (c k && ent A p j)).
  { assert (E := xsum_change m k (fun i => c i && ent (radd k p A) i j) (fun i => c i && ent A i j) Hk).
    cbv beta in E. rewrite (ent_radd m n) in E by auto. rewrite Nat.eqb_refl in E.
    assert (E' : xorb (xsum m (fun i => c i && ent (radd k p A) i j)) (xsum m (fun i => c i && ent A i j)) = c k && ent A p j).
    { rewrite E. - destruct (c k), (ent A k j), (ent A p j); auto.
      - intros i Hi Hn. rewrite (ent_radd m n) by auto. destruct (Nat.eqb_spec i k); auto; congruence. }
    revert E'. destruct (xsum m (fun i => c i && ent (radd k p A) i j)), (xsum m (fun i => c i && ent A i j)), (c k && ent A p j); simpl; congruence. }
  rewrite E. 
  assert (E2 := xsum_change m p (fun i => cadd k p c i && ent A i j) (fun i => c i && ent A i j) Hp).
  cbv beta in E2. unfold cadd at 3 in E2. rewrite Nat.eqb_refl in E2.
  assert (E' : xorb (xsum m (fun i => cadd k p c i && ent A i j)) (xsum m (fun i => c i && ent A i j)) = c k && ent A p j).
  { rewrite E2. - destruct (c k), (c p), (ent A p j); auto.
    - intros i Hi Hn. unfold cadd. destruct (Nat.eqb_spec i p); auto; congruence. }
  revert E'. destruct (xsum m (fun i => cadd k p c i && ent A i j)), (xsum m (fun i => c i && ent A i j)), (c k && ent A p j); simpl; congruence.
Qed.
Lemma cadd_invol k p c i : k <> p -> cadd k p (cadd k p c) i = c i.
Proof.
  intros H. unfold cadd. destruct (Nat.eqb_spec i p); auto. subst. rewrite Nat.eqb_refl.
  destruct (Nat.eqb_spec k p); [congruence|]. destruct (c p), (c k); auto.
Qed.
(** Row operations change the coefficients by a bijection preserving zero. *)
Lemma comb_ext m c c' A j : (forall k, k < m -> c k = c' k) -> comb m c A j = comb m c' A j.
Proof. intros H. apply xsum_ext. intros. rewrite H; auto. Qed.
Lemma comb_zero m A j : comb m (fun _ => false) A j = false.
Proof. apply xsum_0. auto. Qed.
Lemma rops_comb m n A B : rops m n A B -> shaped m n A ->
  exists f g : (nat -> bool) -> (nat -> bool),
    (forall c j, comb m c A j = comb m (f c) B j) /\ (forall c j, comb m c B j = comb m (g c) A j) /\
    (forall c, (forall k, k < m -> g c k = false) -> forall k, k < m -> c k = false).
Proof.
  intros H HA. induction H.
  - exists (fun c => c), (fun c => c). auto.
  - destruct IHrops as (f & g & Hf & Hg & Hg0); auto. assert (HB := rops_shaped _ _ _ _ H HA).
    exists (fun c => cadd k p (f c)), (fun c => g (cadd k p c)). repeat split.
    + intros c j. rewrite (comb_radd m n) by auto. rewrite Hf. apply comb_ext. intros. rewrite cadd_invol; auto.
    + intros c j. rewrite (comb_radd m n) by auto. apply Hg.
    + intros c Hc. assert (Hz := Hg0 _ Hc). intros i Hi.
      assert (Hz' : forall i, i < m -> c i = cadd k p (cadd k p c) i) by (intros; rewrite cadd_invol; auto).
      rewrite Hz' by auto. unfold cadd at 1. destruct (Nat.eqb_spec i p); rewrite ?Hz; auto.
Qed.
Lemma rops_indep m n A B : rops m n A B -> shaped m n A -> indep m n A -> indep m n B.
Proof.
  intros H HA HI c Hc. destruct (rops_comb _ _ _ _ H HA) as (f & g & Hf & Hg & H0).
  apply H0. intros k Hk. apply HI; auto. intros j Hj. rewrite <- Hg. auto.
Qed.
Lemma rops_space m n A B v : rops m n A B -> shaped m n A -> (in_rowspace m n A v <-> in_rowspace m n B v).
Proof.
  intros H HA. destruct (rops_comb _ _ _ _ H HA) as (f & g & Hf & Hg & H0). split; intros (c & Hc).
  - exists (f c). intros j Hj. rewrite <- Hf. auto.
  - exists (g c). intros j Hj. rewrite <- Hg. auto.
Qed.
Lemma comb_delta m A i j : i < m -> comb m (delta i) A j = ent A i j.
Proof. intros. unfold comb. apply (xsum_delta_l m i (fun k => ent A k j)); auto. Qed.

Lemma swap_rops m n i p A : shaped m n A -> i < m -> p < m -> rops m n A (swap_rows i p A).
Proof.
  intros HA Hi Hp. unfold swap_rows. destruct (Nat.eqb_spec i p); [constructor|].
  assert (E : upd p (row A i) (upd i (row A p) A) = radd i p (radd p i (radd i p A))).
  { assert (H1 := radd_shaped m n i p A HA Hi Hp). assert (H2 := radd_shaped m n p i _ H1 Hp Hi).
    assert (H3 := radd_shaped m n i p _ H2 Hi Hp).
    apply (mat_ext m n); auto.
    - apply shaped_upd; [|eapply shaped_row; eauto]. apply shaped_upd; auto. eapply shaped_row; eauto.
    - intros r c Hr Hc. rewrite (ent_radd m n _ _ (radd p i (radd i p A))) by auto.
      rewrite !(ent_radd m n _ _ (radd i p A)) by auto. rewrite !(ent_radd m n _ _ A) by auto.
      rewrite ent_row, row_upd by (rewrite upd_length; destruct HA; lia). rewrite row_upd by (destruct HA; lia).
      rewrite !ent_row. rewrite !Nat.eqb_refl.
      destruct (Nat.eqb_spec r p), (Nat.eqb_spec r i), (Nat.eqb_spec p i), (Nat.eqb_spec i p); try congruence; subst;
        repeat match goal with |- context [nth ?a ?b false] => destruct (nth a b false) end; auto. }
  rewrite E. repeat (apply rops_step; auto). constructor.
Qed.
Lemma ent_swap m n i p A r c : shaped m n A -> i < m -> p < m ->
  ent (swap_rows i p A) r c = if (r =? p)%nat then ent A i c else if (r =? i)%nat then ent A p c else ent A r c.
Proof.
  intros HA Hi Hp. unfold swap_rows. destruct (Nat.eqb_spec i p).
  - subst. destruct (Nat.eqb_spec r p); subst; auto.
  - rewrite ent_row, row_upd by (rewrite upd_length; destruct HA; lia). rewrite row_upd by (destruct HA; lia).
    destruct (Nat.eqb_spec r p); auto. destruct (Nat.eqb_spec r i); auto.
Qed.

Lemma clear_spec full m n p j A : shaped m n A -> p < m ->
  rops m n A (clear_col full m p j A) /\
  forall i c, i < m -> ent (clear_col full m p j A) i c =
    if ent A i j && negb (i =? p)%nat && (full || (p <? i)%nat) then xorb (ent A i c) (ent A p c) else ent A i c.
Proof.
  intros HA Hp. unfold clear_col.
  set (ks := if full then seq 0 m else seq (S p) (m - S p)).
  assert (Hks : NoDup ks /\ (forall k, In k ks <-> (k < m /\ (full || (p <? k)%nat = true))) ).
  { unfold ks. destruct full; split; try apply seq_NoDup; intros k; rewrite in_seq.
    - intuition lia. - simpl. rewrite Nat.ltb_lt. intuition lia. }
  clearbody ks. destruct Hks as [Hnd Hks].
  assert (G : forall ks, NoDup ks -> (forall k, In k ks -> k < m) -> forall B, shaped m n B ->
    let B' := fold_left (fun A k => if ent A k j && negb (k =? p)%nat then upd k (rxor (row A k) (row A p)) A else A) ks B in
    rops m n B B' /\ forall i c, ent B' i c = if ent B i j && negb (i =? p)%nat && existsb (Nat.eqb i) ks then xorb (ent B i c) (ent B p c) else ent B i c).
  { clear ks Hnd Hks A HA. induction ks as [|k ks IH]; intros Hnd Hm B HB; cbn [fold_left existsb].
    - split; [constructor|]. intros i c. rewrite andb_false_r. auto.
    - apply NoDup_cons_iff in Hnd. destruct Hnd as [Hnk Hnd]. assert (Hk : k < m) by (apply Hm; left; auto).
      assert (Hnk' : existsb (Nat.eqb k) ks = false).
      { destruct (existsb (Nat.eqb k) ks) eqn:E; auto. apply existsb_exists in E. destruct E as (x & Hx & E).
        apply Nat.eqb_eq in E. subst. contradiction. }
      destruct (ent B k j && negb (k =? p)%nat) eqn:E.
      + apply andb_true_iff in E. destruct E as [E1 E2]. apply negb_true_iff, Nat.eqb_neq in E2.
        change (upd k (rxor (row B k) (row B p)) B) with (radd k p B).
        assert (HB' := radd_shaped m n k p B HB Hk Hp).
        destruct (IH Hnd (fun k Hk => Hm k (or_intror Hk)) _ HB') as [H1 H2]. split.
        * eapply rops_trans; [|exact H1]. apply rops_step; auto. constructor.
        * intros i c. rewrite H2. rewrite !(ent_radd m n _ _ B) by auto.
          destruct (Nat.eqb_spec i k).
          -- subst. rewrite Hnk', E1. rewrite !andb_false_r. simpl.
             destruct (Nat.eqb_spec k p); [congruence|]. reflexivity.
          -- simpl. destruct (Nat.eqb_spec p k); [congruence|]. auto.
      + destruct (IH Hnd (fun k Hk => Hm k (or_intror Hk)) _ HB) as [H1 H2]. split; auto.
        intros i c. rewrite H2. destruct (Nat.eqb_spec i k); auto. subst. rewrite E. auto. }
  destruct (G ks Hnd (fun k Hk => proj1 (proj1 (Hks k) Hk)) A HA) as [H1 H2]. split; auto.
  intros i c Hi. rewrite H2. 
  replace (existsb (Nat.eqb i) ks) with (full || (p <? i)%nat); auto.
  destruct (existsb (Nat.eqb i) ks) eqn:E.
  - apply existsb_exists in E. destruct E as (x & Hx & E). apply Nat.eqb_eq in E. subst. apply Hks in Hx. tauto.
  - destruct (full || (p <? i)%nat) eqn:E'; auto. assert (In i ks) by (apply Hks; auto).
    assert (existsb (Nat.eqb i) ks = true); [|congruence]. apply existsb_exists. exists i. rewrite Nat.eqb_refl. auto.
Qed.

(** * The elimination loop *)
(** after the columns < j, with p pivots *)
Definition elim_inv (full : bool) (m j p : nat) (piv : nat -> nat) (A : list (list bool)) : Prop :=
  p <= m /\
  (forall i, i < p -> piv i < j /\ leads A i (piv i)) /\
  (forall i i', i < i' -> i' < p -> piv i < piv i') /\
  (forall i c, p <= i -> i < m -> c < j -> ent A i c = false) /\
  (full = true -> forall i i', i < p -> i' < m -> i' <> i -> ent A i' (piv i) = false).

Lemma elim_loop_spec full m n : forall k j p piv A, shaped m n A -> j + k <= n -> p < m \/ m = 0 ->
  elim_inv full m j p piv A ->
  let A' := elim_loop full m (seq j k) p A in
  rops m n A A' /\ exists p' piv', elim_inv full m (j + k) p' piv' A'.
Proof.
  induction k; intros j p piv A HA Hjk Hpm HI; cbn [seq elim_loop].
  - split; [constructor|]. exists p, piv. rewrite Nat.add_0_r. auto.
  - destruct HI as (Hp & Hl & Hinc & Hz & Hfull).
    destruct (find (fun i => ent A i j) (seq p (m - p))) as [i|] eqn:E.
    + apply find_some in E. destruct E as [Hi E]. apply in_seq in Hi.
      assert (Hpm' : p < m) by lia. assert (Him : i < m) by lia.
      assert (R1 := swap_rops m n i p A HA Him Hpm').
      assert (HS := rops_shaped _ _ _ _ R1 HA).
      destruct (clear_spec full m n p j (swap_rows i p A) HS Hpm') as [R2 HC].
      set (A2 := clear_col full m p j (swap_rows i p A)) in *.
      assert (HA2 := rops_shaped _ _ _ _ R2 HS).
      assert (Hsw := ent_swap m n i p A). 
      assert (HI' : elim_inv full m (S j) (S p) (fun r => if (r =? p)%nat then j else piv r) A2).
      { (* rows above p: what happened to their entries at columns < j *)
        assert (Hrow : forall r c, r < m -> c < j -> ent A2 r c = if (r =? p)%nat then ent A i c else if (r =? i)%nat then ent A p c else ent A r c).
        { intros r c Hr Hc. rewrite HC by auto. rewrite !Hsw by auto. rewrite Nat.eqb_refl.
          rewrite (Hz i c) by lia. destruct (_ && _ && _); auto; try (rewrite xorb_false_r; auto). }
        assert (Hpj : ent A2 p j = true).
        { rewrite HC by auto. rewrite Nat.eqb_refl. simpl. rewrite andb_false_r. simpl. rewrite Hsw, Nat.eqb_refl by auto. auto. }
        assert (Hrj : forall r, r < m -> r <> p -> (full = true \/ p < r) -> ent A2 r j = false).
        { intros r Hr Hrp Hfr. rewrite HC by auto. destruct (Nat.eqb_spec r p); [congruence|]. simpl. rewrite andb_true_r.
          assert (Hb : full || (p <? r)%nat = true).
          { destruct Hfr as [->|Hlt]; auto. apply Nat.ltb_lt in Hlt. rewrite Hlt. apply orb_true_r. }
          rewrite Hb, andb_true_r.
          rewrite (Hsw p j), Nat.eqb_refl, E by auto. destruct (ent (swap_rows i p A) r j) eqn:E2; auto. }
        split; [lia|]. split; [|split; [|split]].
        - intros r Hr. destruct (Nat.eqb_spec r p).
          + subst. split; [lia|]. split; auto. intros c Hc. rewrite Hrow, Nat.eqb_refl by auto. apply Hz; lia.
          + destruct (Hl r ltac:(lia)) as [Hlt [He Hlz]]. split; [lia|]. 
            assert (Hri : (r =? i)%nat = false) by (apply Nat.eqb_neq; lia).
            assert (Hrp : (r =? p)%nat = false) by (apply Nat.eqb_neq; lia).
            split. * rewrite Hrow, Hri, Hrp by lia. auto. * intros c Hc. rewrite Hrow, Hri, Hrp by lia. auto.
        - intros r r' Hr Hr'. destruct (Nat.eqb_spec r p); [lia|]. destruct (Nat.eqb_spec r' p).
          + apply Hl. lia. + apply Hinc; lia.
        - intros r c Hr Hrm Hc. destruct (Nat.eq_dec c j).
          + subst. apply Hrj; auto; lia.
          + rewrite Hrow by lia. destruct (Nat.eqb_spec r p); [lia|]. destruct (r =? i)%nat; apply Hz; lia.
        - intros Hfl r r' Hr Hr' Hrr. destruct (Nat.eqb_spec r p).
          + subst. apply Hrj; auto.
          + destruct (Hl r ltac:(lia)) as [Hlt [He Hlz]]. rewrite Hrow by lia.
            destruct (r' =? p)%nat; [apply Hz; lia|]. destruct (r' =? i)%nat; [apply Hz; lia|]. apply Hfull; auto; lia. }
      destruct (Nat.eqb_spec (S p) m) as [Em|Em].
      * split; [eapply rops_trans; eauto|]. exists (S p), (fun r => if (r =? p)%nat then j else piv r).
        destruct HI' as (G1 & G2 & G3 & G4 & G5). split; [auto|]. split; [|split; [auto|split; [|auto]]].
        -- intros r Hr. destruct (G2 r Hr). split; auto. lia.
        -- intros r c Hr Hrm. lia.
      * destruct (IHk (S j) (S p) _ A2 HA2 ltac:(lia) ltac:(lia) HI') as [R3 H3]. split.
        -- eapply rops_trans; [eapply rops_trans; eauto|]. exact R3.
        -- replace (j + S k) with (S j + k) by lia. auto.
    + assert (Hn := find_none _ _ E). 
      replace (j + S k) with (S j + k) by lia. apply (IHk (S j) p piv A); auto; [lia|].
      split; [auto|]. split; [|split; [auto|split; [|auto]]].
      * intros r Hr. destruct (Hl r Hr). split; auto.
      * intros r c Hr Hrm Hc. destruct (Nat.eq_dec c j); [|apply Hz; auto; lia]. subst.
        apply (Hn r). apply in_seq. lia.
Qed.
Lemma elimination_spec full nc m n D : shaped m n D -> nc <= n ->
  let D' := mdata (elimination full nc (Mat m n D)) in
  rops m n D D' /\ exists p piv, elim_inv full m nc p piv D'.
Proof.
  intros HD Hn. unfold elimination. cbn [mdata mrows mcols].
  assert (H0 : elim_inv full m 0 0 (fun _ => 0) D) by (repeat split; intros; lia).
  destruct m; [|apply (elim_loop_spec full (S m) n nc 0 0 (fun _ => 0) D); auto; lia].
  apply (elim_loop_spec full 0 n nc 0 0 (fun _ => 0) D); auto.
Qed.
Lemma inv_leads full m nc p piv A i j : elim_inv full m nc p piv A -> i < m -> j < nc -> leads A i j -> i < p /\ piv i = j.
Proof.
  intros (Hp & Hl & Hinc & Hz & _) Hi Hj [He Hlz].
  destruct (le_lt_dec p i) as [Hpi|Hpi]; [rewrite Hz in He; auto; discriminate|].
  split; auto. destruct (Hl i Hpi) as [_ [He' Hlz']].
  destruct (lt_eq_lt_dec (piv i) j) as [[?|?]|?]; auto.
  - rewrite Hlz in He'; auto; discriminate. - rewrite Hlz' in He; auto; discriminate.
Qed.
Lemma inv_echelon full m nc p piv A : elim_inv full m nc p piv A -> echelon m nc A.
Proof.
  intros (Hp & Hl & Hinc & Hz & _) i i' j' Hi Hi' Hj' He.
  destruct (le_lt_dec p i') as [Hpi|Hpi]; [rewrite Hz in He; auto; discriminate|].
  exists (piv i). split.
  - assert (piv i < piv i') by (apply Hinc; auto). destruct (Hl i' Hpi) as [_ [_ Hlz']].
    destruct (le_lt_dec (piv i') j'); [lia|]. rewrite Hlz' in He; auto; discriminate.
  - apply Hl. lia.
Qed.
Lemma inv_reduced m nc p piv A : elim_inv true m nc p piv A -> reduced m nc A.
Proof.
  intros HI i j i' Hi Hi' Hne Hj Hlead. destruct (inv_leads _ _ _ _ _ _ _ _ HI Hi Hj Hlead) as [Hip <-].
  apply HI; auto.
Qed.
(** the pivot rows are independent over the first nc columns *)
Lemma inv_indep full m nc p piv A c : elim_inv full m nc p piv A ->
  (forall j, j < nc -> comb m c A j = false) -> forall i, i < p -> c i = false.
Proof.
  intros (Hp & Hl & Hinc & Hz & _) Hc.
  intros i. induction i as [i IH] using lt_wf_ind. intros Hi.
  destruct (Hl i Hi) as [Hlt [He _]]. assert (E := Hc _ Hlt). unfold comb in E.
  rewrite (xsum_single m i) in E; [|lia|].
  - rewrite He, andb_true_r in E. auto.
  - intros k Hk Hki. destruct (le_lt_dec p k) as [|Hkp]. { rewrite Hz by auto. apply andb_false_r. }
    destruct (lt_eq_lt_dec k i) as [[Hlt'|]|Hgt]; [rewrite IH by auto; auto|congruence|].
    destruct (Hl k Hkp) as [_ [_ Hkz]]. rewrite Hkz by (apply Hinc; auto). apply andb_false_r.
Qed.
