(** compute_correction_matrix returns a matrix C with M C = 1 and N C nilpotent
    whenever there is one. *)
From Coq Require Import Arith ZArith List Bool Lia Permutation.
From Verif Require Import NSet Pattern OpenGraph FlowSpec Flow TopGen Linalg LinalgThm GPFlow GPLin GPAlg GPLoop.
Import ListNotations.

(** columns [c v] with M c = 1 and the order N c compatible with [lay] *)
Definition correcting (m n : nat) (M N : list (list bool)) (c : nat -> nat -> bool) (lay : nat -> nat) : Prop :=
  forall v, v < m -> (forall u, u < m -> mv n M (c v) u = delta u v) /\ (forall u, u < m -> mv n N (c v) u = true -> lay u < lay v).

Lemma filter_map {A B} (f : B -> bool) (g : A -> B) l : filter f (map g l) = map g (filter (fun x => f (g x)) l).
Proof. induction l; simpl; auto. rewrite IHl. destruct (f (g a)); auto. Qed.
Lemma rows_by_node no D : NoDup no -> length D = length no -> D = map (fun v => row D (pos v no)) no.
Proof.
  intros ND HL. apply nth_ext with (d := []) (d' := row D (pos 0 no)); [rewrite map_length; auto|]. intros i Hi.
  rewrite (map_nth (fun v => row D (pos v no))). rewrite pos_nth by (auto; lia). auto.
Qed.
Lemma mv_false_row n N x u : any_row n (row N u) = false -> mv n N x u = false.
Proof.
  intros A. rewrite any_row_false in A. apply xsum_0. intros j Hj. assert (ent N u j = false) by (apply A; auto). rewrite H. auto.
Qed.
Lemma xsum_1 (f : nat -> bool) i n : i < n -> (forall k, k < n -> k <> i -> f k = false) -> xsum n f = f i.
Proof. intros. apply xsum_single; auto. Qed.

Section Gen.
  Variables (it : iter) (og : opengraph) (M N : mat).
  Hypothesis Hit : iter_ok it.
  Notation no := (non_outputs_l og).
  Notation m := (length (non_outputs_l og)).
  Notation n := (mcols M).
  Hypothesis ND : NoDup no.
  Hypothesis HM : mat_ok M.
  Hypothesis HN : mat_ok N.
  Hypothesis Mr : mrows M = m.
  Hypothesis Nr : mrows N = m.
  Hypothesis Nc : mcols N = n.
  Notation d := (length (og_out og) - length (og_in og)).
  Hypothesis Hd : m + d = n.

  Section WithC0.
    Variable C0 : mat.
    Hypothesis C0r : mrows C0 = n.
    Hypothesis C0c : mcols C0 = m.
    Hypothesis C0ok : mat_ok C0.
    Hypothesis C0i : is_right_inverse m n (mdata M) (mdata C0).
    Let F := transpose (null_space M).
    Let Cp := Mat (mrows C0) (mcols C0 + mcols F) (hstack (mdata C0) (mdata F)).
    Lemma F_shape : mrows F = n /\ mcols F = d /\ shaped n d (mdata F).
    Proof.
      assert (E := nullity M (mdata C0) HM). rewrite Mr in E. specialize (E C0i).
      destruct (null_space_correct M HM) as (E1 & E2 & _). cbv zeta in *.
      assert (X := transpose_shaped (null_space M)). fold F in X. unfold F in *. cbn [mrows mcols transpose] in *. rewrite E1 in *.
      assert (Hd' : mrows (null_space M) = d) by lia. rewrite Hd' in *. auto.
    Qed.
    (** the columns built from a solution x of the kernel *)
    Definition ccol (x : nat -> bool) (j i : nat) : bool := xorb (ent (mdata C0) i j) (xsum d (fun k => ent (mdata F) i k && x k)).
    Lemma F_kernel k : k < d -> forall u, u < m -> mv n (mdata M) (fun i => ent (mdata F) i k) u = false.
    Proof.
      intros Hk u Hu. destruct F_shape as (F1 & F2 & F3). destruct (null_space_correct M HM) as (E1 & E2 & E3 & E4). cbv zeta in *.
      assert (Er : mrows (null_space M) = d) by (unfold F, transpose in F2; cbn [mcols] in F2; auto).
      assert (X : in_kernel (mrows M) n (mdata M) (fun i => ent (mdata (null_space M)) k i)).
      { apply E4. rewrite Er. exists (delta k). intros j Hj. symmetry. apply (comb_delta d). auto. }
      rewrite Mr in X. specialize (X u Hu). cbv beta in X. rewrite <- X. apply xsum_ext. intros i Hi. f_equal. unfold F. rewrite ent_transpose; auto; lia.
    Qed.
    Lemma ccol_M x j u : j < m -> u < m -> mv n (mdata M) (ccol x j) u = delta u j.
    Proof.
      intros Hj Hu. unfold ccol. rewrite mv_xor.
      rewrite (mv_ext n (mdata M) (fun i => xsum d (fun k => ent (mdata F) i k && x k)) (fun i => xsum d (fun k => x k && ent (mdata F) i k)))
        by (intros; apply xsum_ext; intros; apply andb_comm).
      rewrite mv_sum. rewrite (xsum_0 d). - rewrite xorb_false_r. apply C0i; auto.
      - intros k Hk. rewrite F_kernel by auto. apply andb_false_r.
    Qed.
    (** every right inverse is of this form *)
    Lemma ccol_all (c : nat -> bool) j : j < m -> (forall u, u < m -> mv n (mdata M) c u = delta u j) ->
      exists x, forall i, i < n -> c i = ccol x j i.
    Proof.
      intros Hj Hc. destruct F_shape as (F1 & F2 & F3). destruct (null_space_correct M HM) as (E1 & E2 & E3 & E4). cbv zeta in *.
      assert (Er : mrows (null_space M) = d) by (unfold F, transpose in F2; cbn [mcols] in F2; auto).
      assert (X : in_kernel (mrows M) n (mdata M) (fun i => xorb (c i) (ent (mdata C0) i j))).
      { intros u Hu. rewrite Mr in Hu. change (mv n (mdata M) (fun i => xorb (c i) (ent (mdata C0) i j)) u = false). rewrite mv_xor, Hc by auto.
        unfold mv. rewrite C0i by auto. apply xorb_nilpotent. }
      apply E4 in X. destruct X as [x Hx]. rewrite Er in Hx. exists x. intros i Hi. unfold ccol.
      assert (Y : xsum d (fun k => ent (mdata F) i k && x k) = xorb (c i) (ent (mdata C0) i j)).
      { specialize (Hx i Hi). cbv beta in Hx. rewrite Hx. apply xsum_ext. intros k Hk. rewrite andb_comm. f_equal. unfold F. rewrite ent_transpose; auto; lia. }
      rewrite Y. destruct (ent (mdata C0) i j), (c i); auto.
    Qed.
    Let optim := filter (fun v => any_row (mcols N) (row (mdata N) (pos v no))) no.
    Let nzrows := filter (any_row (mcols N)) (mdata N).
    Let q := length optim.
    Let nb := mat_mul (Mat (length nzrows) (mcols N) nzrows) Cp.
    Let K0 := hstack (hstack (map (skipn m) (mdata nb)) (map (firstn m) (mdata nb))) (eye q).
    Lemma nz_eq : nzrows = map (fun v => row (mdata N) (pos v no)) optim.
    Proof.
      assert (HL : length (mdata N) = m) by (destruct HN as [A _]; congruence).
      unfold nzrows. rewrite (rows_by_node no (mdata N) ND HL) at 1. rewrite filter_map. auto.
    Qed.
    Lemma Cp_ok : mat_ok Cp /\ mrows Cp = n /\ mcols Cp = m + d /\ forall i j, i < n -> ent (mdata Cp) i j = if (j <? m)%nat then ent (mdata C0) i j else ent (mdata F) i (j - m).
    Proof.
      destruct F_shape as (F1 & F2 & F3). assert (S0 : shaped n m (mdata C0)) by (unfold mat_ok in C0ok; rewrite C0r, C0c in C0ok; auto).
      unfold Cp, mat_ok. cbn [mrows mcols mdata]. rewrite C0r, C0c, F2. split; [apply hstack_shaped; auto|]. split; auto. split; auto.
      intros i j Hi. apply (ent_hstack n m d); auto.
    Qed.
    Lemma optim_In v : In v optim <-> In v no /\ any_row n (row (mdata N) (pos v no)) = true.
    Proof. unfold optim. rewrite filter_In, Nc. tauto. Qed.
    Lemma nb_spec : shaped q (m + d) (mdata nb) /\ forall k, k < q ->
      (forall j, j < m -> ent (mdata nb) k j = mv n (mdata N) (fun i => ent (mdata C0) i j) (pos (nth k optim 0) no)) /\
      (forall j, j < d -> ent (mdata nb) k (m + j) = mv n (mdata N) (fun i => ent (mdata F) i j) (pos (nth k optim 0) no)).
    Proof.
      destruct Cp_ok as (P1 & P2 & P3 & P4).
      assert (Lz : length nzrows = q) by (rewrite nz_eq, map_length; auto).
      assert (Z : mat_ok (Mat (length nzrows) (mcols N) nzrows)).
      { split; cbn [mrows mcols mdata]; auto. intros r Hr. unfold nzrows in Hr. apply filter_In in Hr. destruct HN as [_ A]. apply A. tauto. }
      destruct (mat_mul_correct _ Cp Z P1) as (A & B & C & D); [cbn [mcols]; lia|]. fold nb in A, B, C, D. cbn [mrows mcols mdata] in A, B, C, D.
      split. { unfold mat_ok in C. rewrite A, B, P3, Lz in C. auto. }
      intros k Hk. assert (Er : forall i, ent nzrows k i = ent (mdata N) (pos (nth k optim 0) no) i).
      { intros i. unfold ent. f_equal. rewrite nz_eq. rewrite (nth_indep _ [] (row (mdata N) (pos 0 no))) by (rewrite map_length; auto).
        rewrite (map_nth (fun v => row (mdata N) (pos v no))). auto. }
      split; intros j Hj; rewrite D by lia; rewrite Nc; apply xsum_ext; intros i Hi; rewrite Er, P4 by auto; f_equal.
      - destruct (Nat.ltb_spec j m); [auto|lia].
      - destruct (Nat.ltb_spec (m + j) m); [lia|]. f_equal. lia.
    Qed.
    Lemma skipn_shaped a b w A : shaped a (b + w) A -> shaped a w (map (skipn b) A).
    Proof.
      intros [HL H]. split; [rewrite map_length; auto|]. intros r Hr. apply in_map_iff in Hr. destruct Hr as (r0 & <- & Hr). rewrite skipn_length, H; auto. lia.
    Qed.
    Lemma firstn_shaped' a b w A : shaped a (b + w) A -> shaped a b (map (firstn b) A).
    Proof.
      intros [HL H]. split; [rewrite map_length; auto|]. intros r Hr. apply in_map_iff in Hr. destruct Hr as (r0 & <- & Hr). rewrite firstn_length, H; auto. lia.
    Qed.
    Lemma ent_skipn b A i j : ent (map (skipn b) A) i j = ent A i (b + j).
    Proof.
      unfold ent. replace (@nil bool) with (skipn b (@nil bool)) at 1 by apply skipn_nil. rewrite map_nth. apply nth_skipn'.
    Qed.
    Lemma ent_firstn' b A i j : j < b -> ent (map (firstn b) A) i j = ent A i j.
    Proof.
      intros Hj. unfold ent. replace (@nil bool) with (firstn b (@nil bool)) at 1 by apply firstn_nil. rewrite map_nth. apply nth_firstn'. auto.
    Qed.
    Lemma K0_spec : shaped q (d + m + q) K0 /\ (forall k k', k < q -> k' < q -> ent K0 k (d + m + k') = delta k k') /\
      forall k, k < q ->
      (forall j, j < m -> ent K0 k (d + j) = mv n (mdata N) (fun i => ent (mdata C0) i j) (pos (nth k optim 0) no)) /\
      (forall j, j < d -> ent K0 k j = mv n (mdata N) (fun i => ent (mdata F) i j) (pos (nth k optim 0) no)).
    Proof.
      destruct nb_spec as [B1 B2].
      assert (S1 : shaped q d (map (skipn m) (mdata nb))) by (eapply skipn_shaped; eauto).
      assert (S2 : shaped q m (map (firstn m) (mdata nb))) by (eapply firstn_shaped'; eauto).
      assert (S3 := hstack_shaped _ _ _ _ _ S1 S2). assert (S4 := eye_shaped q).
      split; [apply hstack_shaped; auto|]. split.
      - intros k k' Hk Hk'. unfold K0. rewrite (ent_hstack q (d + m) q) by auto. destruct (Nat.ltb_spec (d + m + k') (d + m)); [lia|].
        replace (d + m + k' - (d + m)) with k' by lia. unfold eye. rewrite ent_tab by auto. auto.
      - intros k Hk. destruct (B2 k Hk) as [C1 C2]. split; intros j Hj; unfold K0; rewrite (ent_hstack q (d + m) q) by auto.
        + destruct (Nat.ltb_spec (d + j) (d + m)); [|lia]. rewrite (ent_hstack q d m) by auto. destruct (Nat.ltb_spec (d + j) d); [lia|].
          rewrite ent_firstn' by lia. replace (d + j - d) with j by lia. auto.
        + destruct (Nat.ltb_spec j (d + m)); [|lia]. rewrite (ent_hstack q d m) by auto. destruct (Nat.ltb_spec j d); [|lia].
          rewrite ent_skipn. auto.
    Qed.
    Lemma mvN_ccol x j k : j < m -> k < q -> mv n (mdata N) (ccol x j) (pos (nth k optim 0) no) = xorb (ent K0 k (d + j)) (mv d K0 x k).
    Proof.
      intros Hj Hk. destruct K0_spec as (_ & _ & H). destruct (H k Hk) as [A B]. unfold ccol. rewrite mv_xor, A by auto. f_equal.
      rewrite (mv_ext n (mdata N) _ (fun i => xsum d (fun k => x k && ent (mdata F) i k))) by (intros; apply xsum_ext; intros; apply andb_comm).
      rewrite mv_sum. apply xsum_ext. intros i Hi. rewrite B by auto. apply andb_comm.
    Qed.
    Lemma staged_iff x lay : staged no optim d K0 x lay <-> forall j u, j < m -> u < m -> mv n (mdata N) (ccol (x j) j) u = true -> lay (nth u no 0) < lay (nth j no 0).
    Proof.
      split.
      - intros H j u Hj Hu E. destruct (any_row n (row (mdata N) u)) eqn:A; [|rewrite mv_false_row in E by auto; discriminate].
        assert (I : In (nth u no 0) optim) by (apply optim_In; rewrite pos_nth by auto; split; [apply nth_In; auto|auto]).
        set (k := pos (nth u no 0) optim). assert (Hk : k < q) by (apply pos_lt; auto).
        assert (Ek : nth k optim 0 = nth u no 0) by (apply nth_pos; auto).
        destruct (Nat.lt_ge_cases (lay (nth u no 0)) (lay (nth j no 0))) as [|Hge]; auto. exfalso.
        specialize (H j Hj k Hk). cbv beta in H. rewrite Ek in H. specialize (H (proj2 (Nat.leb_le _ _) Hge)).
        assert (X := mvN_ccol (x j) j k Hj Hk). rewrite Ek, pos_nth, E, H in X by auto. rewrite xorb_nilpotent in X. discriminate.
      - intros H j Hj k Hk Hl. cbv beta in Hl. apply Nat.leb_le in Hl.
        assert (I : In (nth k optim 0) optim) by (apply nth_In; auto). apply optim_In in I. destruct I as [I _].
        assert (X := mvN_ccol (x j) j k Hj Hk). destruct (mv n (mdata N) (ccol (x j) j) (pos (nth k optim 0) no)) eqn:E.
        + apply H in E; auto using pos_lt. rewrite nth_pos in E by auto. lia.
        + destruct (ent K0 k (d + j)), (mv d K0 (x j) k); auto; discriminate.
    Qed.
    (** solutions of the algebraic problem and staged families *)
    Lemma correcting_staged c lay : correcting m n (mdata M) (mdata N) c lay -> exists x, staged no optim d K0 x (fun v => lay (pos v no)).
    Proof.
      intros H. destruct (finite_choice (fun _ => false) m (fun j x => forall i, i < n -> c j i = ccol x j i)) as [x Hx].
      { intros j Hj. apply ccol_all; auto. apply H; auto. }
      exists x. apply staged_iff. intros j u Hj Hu E. rewrite !pos_nth by auto. apply H; auto. rewrite <- E. apply mv_ext. intros; apply Hx; auto.
    Qed.
    Lemma staged_correcting x lay : staged no optim d K0 x lay -> correcting m n (mdata M) (mdata N) (fun j => ccol (x j) j) (fun u => lay (nth u no 0)).
    Proof.
      intros H j Hj. split; [intros; apply ccol_M; auto|]. intros u Hu E. rewrite staged_iff in H. apply H; auto.
    Qed.
    (** the final product *)
    Lemma final_spec P : shaped d m P -> let C := mat_mul Cp (Mat (m + d) m (eye m ++ P)) in
      mrows C = n /\ mcols C = m /\ mat_ok C /\ forall i j, i < n -> j < m -> ent (mdata C) i j = ccol (col P j) j i.
    Proof.
      intros HP. destruct Cp_ok as (P1 & P2 & P3 & P4).
      assert (HE : mat_ok (Mat (m + d) m (eye m ++ P))) by (apply shaped_app; [apply eye_shaped|auto]).
      destruct (mat_mul_correct Cp _ P1 HE) as (A & B & C & D); [cbn [mrows]; auto|]. cbv zeta in *. cbn [mrows mcols mdata] in A, B, C, D.
      rewrite P2 in A. split; auto. split; auto. split; auto. intros i j Hi Hj. rewrite D by lia. rewrite P3.
      rewrite (xsum_split m) by lia. replace (m + d - m) with d by lia. unfold ccol. f_equal.
      - rewrite (xsum_1 _ j m); [|auto|].
        2:{ intros k Hk Hkj. rewrite ent_app. unfold eye. rewrite tab_length. destruct (Nat.ltb_spec k m); [|lia]. rewrite ent_tab by auto.
          unfold delta. destruct (Nat.eqb_spec k j); [congruence|]. apply andb_false_r. }
        rewrite P4 by auto. destruct (Nat.ltb_spec j m); [|lia]. rewrite ent_app. unfold eye. rewrite tab_length. destruct (Nat.ltb_spec j m); [|lia].
        rewrite ent_tab by auto. unfold delta. rewrite Nat.eqb_refl. apply andb_true_r.
      - apply xsum_ext. intros k Hk. rewrite P4 by auto. destruct (Nat.ltb_spec (m + k) m); [lia|]. replace (m + k - m) with k by lia. f_equal.
        rewrite ent_app. unfold eye. rewrite tab_length. destruct (Nat.ltb_spec (m + k) m); [lia|]. replace (m + k - m) with k by lia. auto.
    Qed.
  End WithC0.

  (** _compute_correction_matrix_general_case *)
  Lemma correction_general_correct :
    (exists C lay, correction_general it og M N = Ok (Some C) /\ mrows C = n /\ mcols C = m /\ mat_ok C /\
       correcting m n (mdata M) (mdata N) (fun v i => ent (mdata C) i v) lay /\
       forall c l, correcting m n (mdata M) (mdata N) c l -> forall v, v < m -> lay v <= l v) \/
    (correction_general it og M N = Ok None /\ forall c l, ~ correcting m n (mdata M) (mdata N) c l).
  Proof.
    unfold correction_general. assert (HR := right_inverse_correct M HM). destruct (right_inverse M) as [C0|].
    2:{ right. split; auto. intros c l H. apply HR. rewrite Mr.
        apply (right_inverse_indep m n (mdata M) (tab n (fun i => tab m (fun v => c v i)))). intros i k Hi Hk.
        destruct (H k Hk) as [A _]. rewrite <- A by auto. apply xsum_ext. intros j Hj. rewrite ent_tab; auto. }
    destruct HR as (C0r & C0c & C0ok & C0i). rewrite Mr in C0c, C0i.
    cbv zeta. set (F := transpose (null_space M)). set (Cp := Mat (mrows C0) (mcols C0 + mcols F) (hstack (mdata C0) (mdata F))).
    set (optim := filter (fun v => any_row (mcols N) (row (mdata N) (pos v no))) no).
    set (nzrows := filter (any_row (mcols N)) (mdata N)).
    assert (Enz : nzrows = map (fun v => row (mdata N) (pos v no)) optim) by apply nz_eq.
    destruct (match nzrows with [] => true | _ => false end) eqn:Ez.
    - assert (Hz : nzrows = []) by (destruct nzrows; [auto|discriminate]). rewrite Hz. cbn [rbind].
      destruct (final_spec C0 C0r C0c C0ok C0i (tab d (fun _ => tab m (fun _ => false))) (shaped_tab _ _ _)) as (A & B & C & D). cbv zeta in *. fold F in A, B, C, D. fold Cp in A, B, C, D.
      left. eexists. exists (fun _ => 0). split; [reflexivity|]. split; auto. split; auto. split; auto. split; [|intros; lia].
      intros v Hv. split.
      + intros u Hu. rewrite <- (ccol_M C0 C0r C0c C0i (fun _ => false) v u Hv Hu). apply mv_ext. intros i Hi. rewrite D by auto. unfold ccol. f_equal.
        apply xsum_ext. intros k Hk. f_equal. unfold col. rewrite ent_tab; auto.
      + intros u Hu E. destruct (any_row n (row (mdata N) u)) eqn:A'; [|rewrite mv_false_row in E by auto; discriminate].
        assert (I : In (nth u no 0) optim). { unfold optim. apply filter_In. rewrite pos_nth, Nc by auto. split; [apply nth_In; auto|auto]. }
        rewrite Hz in Enz. destruct optim; [destruct I|discriminate].
    - assert (Hm : (match nzrows with [] => Ok (Some (tab d (fun _ => tab m (fun _ => false)))) | _ => compute_p it no optim d (mat_mul (Mat (length nzrows) (mcols N) nzrows) Cp) end)
                   = compute_p it no optim d (mat_mul (Mat (length nzrows) (mcols N) nzrows) Cp)) by (destruct nzrows; [discriminate|auto]).
      assert (HK := K0_spec C0 C0r C0c C0ok C0i). cbv zeta in HK. fold F in HK. fold Cp in HK. fold optim in HK. fold nzrows in HK. destruct HK as (K1 & K2 & _).
      assert (NDo : NoDup optim) by (apply NoDup_filter; auto).
      assert (Hsub : forall v, In v optim -> In v no) by (intros v Hv; apply filter_In in Hv; tauto).
      destruct (p_loop_correct it no optim d _ Hit ND NDo Hsub K1 K2) as [(P & lay & E & HP & HS & Hmin)|[E Hno]].
      + left. assert (Ec : compute_p it no optim d (mat_mul (Mat (length nzrows) (mcols N) nzrows) Cp) = Ok (Some P)) by exact E.
        destruct (final_spec C0 C0r C0c C0ok C0i P HP) as (A & B & C & D). cbv zeta in *. fold F in A, B, C, D. fold Cp in A, B, C, D.
        exists (mat_mul Cp (Mat (m + d) m (eye m ++ P))), (fun u => lay (nth u no 0)).
        split. { destruct nzrows; [discriminate|]. rewrite Ec. reflexivity. }
        split; auto. split; auto. split; auto. split.
        * assert (X := staged_correcting C0 C0r C0c C0ok C0i _ _ HS). intros v Hv. destruct (X v Hv) as [X1 X2]. split.
          -- intros u Hu. rewrite <- (X1 u Hu). apply mv_ext. intros; apply D; auto.
          -- intros u Hu EE. apply X2; auto. rewrite <- EE. apply mv_ext. intros; symmetry; apply D; auto.
        * intros c l Hc v Hv. destruct (correcting_staged C0 C0r C0c C0ok C0i c l Hc) as [x Hx].
          assert (Y := Hmin x _ Hx (nth v no 0) (nth_In _ _ Hv)). cbv beta in Y. rewrite pos_nth in Y by auto. auto.
      + right. split.
        * assert (Ec : compute_p it no optim d (mat_mul (Mat (length nzrows) (mcols N) nzrows) Cp) = Ok None) by exact E.
          destruct nzrows; [discriminate|]. rewrite Ec. reflexivity.
        * intros c l Hc. destruct (correcting_staged C0 C0r C0c C0ok C0i c l Hc) as [x Hx]. apply (Hno _ _ Hx).
  Qed.
End Gen.
