(** C16: the GF(2) linear algebra routines are correct.

    Vocabulary (Linalg.v, LinalgThm.v): [ent A i j] is entry (i,j); [xsum n f]
    is f 0 + ... + f (n-1) over GF(2); [in_rowspace], [indep], [echelon],
    [reduced], [is_rank], [is_right_inverse], [in_kernel], [solves] are the
    textbook notions and do not mention the code. *)
From Coq Require Import Arith List Bool Lia.
From Verif Require Import Linalg LinalgThm.
Import ListNotations.

(** gauss_elimination (full = false) and row_reduction (full = true), on any
    prefix of the columns, keep the shape and the row space, and return a row
    echelon form on those columns, reduced in the second case. *)
Theorem C16_elimination : forall full nc A, mat_ok A -> nc <= mcols A ->
  let R := elimination full nc A in
  mrows R = mrows A /\ mcols R = mcols A /\ mat_ok R /\
  (forall v, in_rowspace (mrows A) (mcols A) (mdata A) v <-> in_rowspace (mrows A) (mcols A) (mdata R) v) /\
  echelon (mrows A) nc (mdata R) /\ (full = true -> reduced (mrows A) nc (mdata R)).
Proof.
  intros full nc [m n D] HD Hn R. unfold mat_ok in *. cbn [mrows mcols mdata] in *.
  destruct (elimination_spec full nc m n D HD Hn) as [HR (p & piv & HI)]. fold R in HR, HI.
  split; [auto|]. split; [auto|]. split; [|split; [|split]].
  - apply (rops_shaped m n D); auto.
  - intros v. apply rops_space; auto.
  - eapply inv_echelon; eauto.
  - intros ->. eapply inv_reduced; eauto.
Qed.
(** rank is the dimension of the row space, and that dimension is unique. *)
Theorem C16_rank : forall A, mat_ok A -> forall r, is_rank (mrows A) (mcols A) (mdata A) r <-> r = rank A.
Proof.
  intros A HA r. split.
  - intros H. eapply rank_unique; eauto. apply rank_correct; auto.
  - intros ->. apply rank_correct; auto.
Qed.
(** right_inverse returns a right inverse when there is one, None otherwise. *)
Theorem C16_right_inverse : forall A, mat_ok A ->
  match right_inverse A with
  | Some B => mrows B = mcols A /\ mcols B = mrows A /\ mat_ok B /\ is_right_inverse (mrows A) (mcols A) (mdata A) (mdata B)
  | None => ~ exists B, is_right_inverse (mrows A) (mcols A) (mdata A) B
  end.
Proof.
  intros A HA. assert (H := right_inverse_correct A HA). destruct (right_inverse A); auto.
  intros [B HB]. apply H. eapply right_inverse_indep; eauto.
Qed.
(** ... and it returns one exactly for the matrices of full row rank. *)
Theorem C16_right_inverse_full_rank : forall A, mat_ok A -> (right_inverse A <> None <-> rank A = mrows A).
Proof.
  intros A HA. assert (H := right_inverse_correct A HA).
  assert (HI : rank A = mrows A <-> indep (mrows A) (mcols A) (mdata A)).
  { split.
    - intros E. assert (HR := rank_correct A HA). rewrite E in HR. destruct HR as (B & HB & HBi & HS).
      intros c Hc k Hk. destruct (c k) eqn:Eck; auto. exfalso.
      (* the other rows span the row space: the dimension would be smaller *)
      assert (Hrow : forall j, j < mcols A -> ent (mdata A) k j = comb (mrows A) (fun i => if (i =? k)%nat then false else c i) (mdata A) j).
      { intros j Hj. assert (Hz := Hc j Hj). unfold comb in *.
        assert (Hch := xsum_change (mrows A) k (fun i => c i && ent (mdata A) i j) (fun i => (if (i =? k)%nat then false else c i) && ent (mdata A) i j) Hk).
        cbv beta in Hch. rewrite Nat.eqb_refl, Eck, Hz in Hch. rewrite xorb_false_l, andb_true_l, andb_false_l, xorb_false_r in Hch. symmetry.
        apply Hch. intros i Hi Hne. destruct (Nat.eqb_spec i k); auto; congruence. }
      set (m := mrows A) in *. set (n := mcols A) in *. set (D := mdata A) in *.
      (* remove row k: m-1 rows *)
      set (sk := fun i => if (i <? k)%nat then i else S i).
      set (D' := tab (m - 1) (fun i => tab n (fun j => ent D (sk i) j))).
      assert (Hlt : m <= m - 1); [|lia].
      apply (indep_le m (m - 1) n B D'); auto. { apply shaped_tab. }
      intros v Hv. apply HS in Hv. destruct Hv as [d Hd].
      assert (Hsplit : forall f, xsum m f = xorb (f k) (xsum (m - 1) (fun i => f (sk i)))).
      { intros f. rewrite (xsum_split (S k)) by lia. simpl (xsum (S k) f). rewrite (xsum_split k (m - 1)) by lia.
        rewrite (xsum_ext k (fun i => f (sk i)) f).
        2:{ intros i Hi. unfold sk. destruct (Nat.ltb_spec i k); [auto|lia]. }
        replace (m - 1 - k) with (m - S k) by lia.
        rewrite (xsum_ext (m - S k) (fun r => f (sk (k + r))) (fun r => f (S k + r))).
        - destruct (xsum k f), (f k), (xsum (m - S k) (fun r => f (S k + r))); auto.
        - intros i Hi. unfold sk. destruct (Nat.ltb_spec (k + i) k); [lia|]. auto. }
      exists (fun i => xorb (d (sk i)) (d k && c (sk i))). intros j Hj. rewrite Hd by auto.
      unfold comb. rewrite Hsplit.
      rewrite (Hrow j Hj). unfold comb. rewrite (Hsplit (fun i => (if (i =? k)%nat then false else c i) && ent D i j)).
      cbv beta. rewrite Nat.eqb_refl. simpl (false && _). rewrite xorb_false_l. rewrite <- xsum_and_l, <- xsum_xor.
      apply xsum_ext. intros i Hi. unfold D'. rewrite ent_tab by auto.
      assert (Hsk : sk i <> k) by (unfold sk; destruct (Nat.ltb_spec i k); lia).
      destruct (Nat.eqb_spec (sk i) k); [congruence|]. destruct (d k), (c (sk i)), (d (sk i)), (ent D (sk i) j); auto.
    - intros Hi. symmetry. apply (C16_rank A HA). exists (mdata A). split; [exact HA|]. split; auto. intros; tauto. }
  rewrite HI. destruct (right_inverse A) as [B|] eqn:E.
  - split; [|discriminate]. intros _. eapply right_inverse_indep. apply H.
  - split; [congruence|]. intros Hc. contradiction.
Qed.
(** null_space: its rows are a basis of the kernel. *)
Theorem C16_null_space : forall A, mat_ok A ->
  let N := null_space A in
  mcols N = mcols A /\ mat_ok N /\ indep (mrows N) (mcols A) (mdata N) /\
  forall x, in_kernel (mrows A) (mcols A) (mdata A) x <-> in_rowspace (mrows N) (mcols A) (mdata N) x.
Proof. exact null_space_correct. Qed.
(** mat_mul is the matrix product. *)
Theorem C16_mat_mul : forall A B, mat_ok A -> mat_ok B -> mcols A = mrows B ->
  let P := mat_mul A B in
  mrows P = mrows A /\ mcols P = mcols B /\ mat_ok P /\
  forall i j, i < mrows A -> j < mcols B ->
    ent (mdata P) i j = xsum (mcols A) (fun k => ent (mdata A) i k && ent (mdata B) k j).
Proof. exact mat_mul_correct. Qed.
(** solve_f2_linear_system solves every solvable system given in row echelon form. *)
Theorem C16_solve : forall A b, mat_ok A -> length b = mrows A -> echelon (mrows A) (mcols A) (mdata A) ->
  (exists x, solves (mrows A) (mcols A) (mdata A) x (fun i => nth i b false)) ->
  length (solve_f2 A b) = mcols A /\
  solves (mrows A) (mcols A) (mdata A) (fun j => nth j (solve_f2 A b) false) (fun i => nth i b false).
Proof. intros A b HA Hb He [x Hx]. eapply solve_correct; eauto. Qed.

(** ** Concrete instances *)
Definition exA : mat := Mat 3 4 [[false;true;true;true];[true;true;false;true];[true;false;true;true]].
Definition exZ : mat := Mat 3 4 [[false;true;true;false];[true;true;false;true];[true;false;true;true]].
Lemma ex_ok : mat_ok exA /\ mat_ok exZ.
Proof. split; (split; [reflexivity|]); intros r [<-|[<-|[<-|[]]]]; reflexivity. Qed.
Example C16_ex_rank : rank exA = 3 /\ rank exZ = 2. Proof. split; reflexivity. Qed.
Example C16_ex_rinv : right_inverse exA <> None /\ right_inverse exZ = None.
Proof. split; [vm_compute; discriminate|reflexivity]. Qed.
Example C16_ex_null : mrows (null_space exA) = 1 /\ mrows (null_space exZ) = 2. Proof. split; reflexivity. Qed.
Example C16_ex_ref : mdata (gauss_elimination 4 exZ) = [[true;true;false;true];[false;true;true;false];[false;false;false;false]].
Proof. reflexivity. Qed.
Example C16_ex_solve : solve_f2 (gauss_elimination 4 exZ) [true;true;false] = [false;true;false;false]. Proof. reflexivity. Qed.
(** outside its precondition (a matrix that is not in echelon form) the solver returns a non-solution of a solvable system *)
Example C16_ex_not_ref : solve_f2 (Mat 2 2 [[false;true];[true;true]]) [true;false] = [false;true].
Proof. reflexivity. Qed.
Print Assumptions C16_elimination.
Print Assumptions C16_rank.
Print Assumptions C16_right_inverse.
Print Assumptions C16_right_inverse_full_rank.
Print Assumptions C16_null_space.
Print Assumptions C16_mat_mul.
Print Assumptions C16_solve.
