(** What the text of an angle, a flow and an XZ-corrections object determines. *)
From Coq Require Import String Ascii Reals ZArith NArith Arith List Bool Lia.
From Verif Require Import Cplx NSet Fundamentals CliffordDb Clifford Measure Pattern Pretty PrettyPat PrettyPatThm PrettyPatCmd.
Import ListNotations.
Local Open Scope nat_scope.

Section Angle.
Variable lim : nat -> R -> frac.
Variable flt : R -> str.
Hypothesis flt_text : forall r, float_text (flt r).
Variable out : fmt.
Notation ang := (angle_to_str lim flt out).
(** the angle (in units of pi) is recognized as a fraction *)
Definition recognized (a : R) : bool := pclose (/ 1000000000) 0 a (fval (lim 1000 a)).

Definition pitxt : str := match out with FLatex => lit "\pi" | FUnicode => [960%N] | FAscii => lit "pi" end.
Definition sgtxt (num : Z) : str := if (num <? 0)%Z then lit "-" else [].
Definition nntxt (n : nat) : str := if n =? 1 then [] else dec n.
Definition fractxt (num : Z) (den : positive) : str :=
  if ((den =? 1)%positive && (num =? 0)%Z)%bool then lit "0" else
  sgtxt num ++ (if (den =? 1)%positive then nntxt (Z.abs_nat num) ++ pitxt else
    match out with
    | FLatex => lit "\frac{" ++ (nntxt (Z.abs_nat num) ++ pitxt) ++ lit "}{" ++ dec (Pos.to_nat den) ++ lit "}"
    | _ => (nntxt (Z.abs_nat num) ++ pitxt) ++ lit "/" ++ dec (Pos.to_nat den) end).
Lemma ang_eq a : ang a = if recognized a then fractxt (fst (lim 1000 a)) (snd (lim 1000 a)) else flt (a * PI)%R.
Proof.
  unfold angle_to_str, recognized, fractxt, sgtxt, nntxt, pitxt. destruct (lim 1000 a) as [num den]. cbn [fst snd].
  destruct (pclose _ _ _ _); cbn [negb]; [|reflexivity].
  destruct (den =? 1)%positive; cbn [andb].
  - destruct (Z.eqb_spec num 0) as [->|Hn]; [reflexivity|].
    destruct (Z.abs_nat num) as [|[|n]] eqn:E; [exfalso; lia|reflexivity|]. change (S (S n) =? 1) with false. cbn iota. reflexivity.
  - destruct (Z.abs_nat num =? 1); destruct out; reflexivity.
Qed.
Lemma nn_dig n : forallb isdig (nntxt n) = true.
Proof. unfold nntxt. destruct (n =? 1); [reflexivity|apply dec_dig]. Qed.
Lemma nn_inj n m : nntxt n = nntxt m -> n = m.
Proof.
  unfold nntxt. destruct (Nat.eqb_spec n 1), (Nat.eqb_spec m 1); subst; auto; intros H; [symmetry in H| |];
    try (now apply dec_ne in H); now apply dec_inj.
Qed.
Definition no_minus (s : str) : bool := hd_no (N.eqb 45) s.
Lemma sg_cut x y r r' : no_minus r = true -> no_minus r' = true -> sgtxt x ++ r = sgtxt y ++ r' ->
  (x <? 0)%Z = (y <? 0)%Z /\ r = r'.
Proof.
  unfold sgtxt. destruct (x <? 0)%Z, (y <? 0)%Z; cbn [app lit]; intros Hr Hr' H; auto.
  - split; auto. now apply cons_inv in H.
  - exfalso. rewrite <- H in Hr'. discriminate.
  - exfalso. rewrite H in Hr. discriminate.
Qed.
Lemma dec_hd n : exists c r, dec n = c :: r /\ isdig c = true.
Proof. destruct (hd_ex (P := isdig) (dec n)) as (c & r & E & H); [apply dec_ne|apply dec_dig|eauto]. Qed.
Lemma body_minus n x : no_minus (nntxt n ++ pitxt ++ x) = true.
Proof.
  unfold nntxt. destruct (n =? 1); [unfold pitxt; destruct out; reflexivity|].
  destruct (dec_hd n) as (c & r & -> & H). cbn. digcases H; reflexivity.
Qed.
Definition haspi (c : N) : bool := (c =? 960)%N || (c =? 112)%N.
Lemma pi_has a b : existsb haspi (a ++ pitxt ++ b) = true.
Proof. rewrite !existsb_app. unfold pitxt. destruct out; cbn; now rewrite ?orb_true_r. Qed.
Lemma fractxt_cases num den : (fractxt num den = lit "0" /\ num = 0%Z /\ den = 1%positive) \/
  (existsb haspi (fractxt num den) = true /\ ~ (num = 0%Z /\ den = 1%positive)).
Proof.
  unfold fractxt. destruct (Pos.eqb_spec den 1); cbn [andb].
  - destruct (Z.eqb_spec num 0); [left; auto|]. right. split; [|tauto]. pose proof (pi_has (sgtxt num ++ nntxt (Z.abs_nat num)) []) as H.
    rewrite app_nil_r in H. now rewrite <- app_assoc in H.
  - right. split; [|tauto]. destruct out eqn:Ho.
    + pose proof (pi_has (sgtxt num ++ nntxt (Z.abs_nat num)) (lit "/" ++ dec (Pos.to_nat den))) as H. now rewrite <- !app_assoc in *.
    + pose proof (pi_has (sgtxt num ++ lit "\frac{" ++ nntxt (Z.abs_nat num)) (lit "}{" ++ dec (Pos.to_nat den) ++ lit "}")) as H. now rewrite <- !app_assoc in *.
    + pose proof (pi_has (sgtxt num ++ nntxt (Z.abs_nat num)) (lit "/" ++ dec (Pos.to_nat den))) as H. now rewrite <- !app_assoc in *.
Qed.
Lemma zsame x y : (x <? 0)%Z = (y <? 0)%Z -> Z.abs_nat x = Z.abs_nat y -> x = y.
Proof. intros H1 H2. destruct (Z.ltb_spec x 0), (Z.ltb_spec y 0); try discriminate; lia. Qed.
Lemma fractxt_inj num den num' den' : fractxt num den = fractxt num' den' -> num = num' /\ den = den'.
Proof.
  intros H. destruct (fractxt_cases num den) as [(E & -> & ->)|(E & Hz)], (fractxt_cases num' den') as [(E' & -> & ->)|(E' & Hz')]; auto.
  - exfalso. rewrite <- H, E in E'. discriminate.
  - exfalso. rewrite H, E' in E. discriminate.
  - clear E E'. unfold fractxt in H.
    assert (Z1 : ((den =? 1)%positive && (num =? 0)%Z)%bool = false)
      by (destruct (Pos.eqb_spec den 1), (Z.eqb_spec num 0); auto; exfalso; tauto).
    assert (Z2 : ((den' =? 1)%positive && (num' =? 0)%Z)%bool = false)
      by (destruct (Pos.eqb_spec den' 1), (Z.eqb_spec num' 0); auto; exfalso; tauto).
    rewrite Z1, Z2 in H. clear Z1 Z2 Hz Hz'.
    destruct out eqn:Ho.
    + assert (Q : forall num den, (if (den =? 1)%positive then nntxt (Z.abs_nat num) ++ pitxt else (nntxt (Z.abs_nat num) ++ pitxt) ++ lit "/" ++ dec (Pos.to_nat den))
        = nntxt (Z.abs_nat num) ++ pitxt ++ (if (den =? 1)%positive then [] else lit "/" ++ dec (Pos.to_nat den))).
      { intros a b. destruct (b =? 1)%positive; rewrite ?app_nil_r, <- ?app_assoc; reflexivity. }
      rewrite !Q in H. apply sg_cut in H; try apply body_minus. destruct H as [Hs H].
      apply span_inj with (P := isdig) in H; try apply nn_dig; try (unfold pitxt; rewrite Ho; reflexivity).
      destruct H as [Hn H]. apply nn_inj in Hn. split; [now apply zsame|]. apply app_inv_head in H.
      destruct (Pos.eqb_spec den 1), (Pos.eqb_spec den' 1); subst; auto; try discriminate.
      apply app_inv_head in H. apply dec_inj in H. now apply Pos2Nat.inj.
    + assert (M1 : no_minus (nntxt (Z.abs_nat num) ++ pitxt) = true) by (pose proof (body_minus (Z.abs_nat num) []) as B; now rewrite app_nil_r in B).
      assert (M2 : no_minus (nntxt (Z.abs_nat num') ++ pitxt) = true) by (pose proof (body_minus (Z.abs_nat num') []) as B; now rewrite app_nil_r in B).
      apply sg_cut in H; [|destruct (den =? 1)%positive; auto|destruct (den' =? 1)%positive; auto].
      destruct H as [Hs H].
      assert (K : forall n q, lit "\frac{" ++ q <> nntxt n ++ pitxt).
      { intros n q E. assert (F : [] ++ (lit "\frac{" ++ q) = nntxt n ++ pitxt) by exact E.
        apply span_inj with (P := isdig) in F; try apply nn_dig; try reflexivity; [|unfold pitxt; rewrite Ho; reflexivity].
        destruct F as [_ F]. unfold pitxt in F. rewrite Ho in F. discriminate. }
      destruct (Pos.eqb_spec den 1), (Pos.eqb_spec den' 1).
      * subst. apply app_inv_tail in H. apply nn_inj in H. split; auto. now apply zsame.
      * exfalso. symmetry in H. now apply K in H.
      * exfalso. now apply K in H.
      * apply app_inv_head in H. rewrite <- !app_assoc in H.
        apply span_inj with (P := isdig) in H; try apply nn_dig; try (unfold pitxt; rewrite Ho; reflexivity).
        destruct H as [Hn H]. apply nn_inj in Hn. split; [now apply zsame|]. apply app_inv_head in H. apply app_inv_head in H. apply app_inv_tail in H.
        apply dec_inj in H. now apply Pos2Nat.inj.
    + assert (Q : forall num den, (if (den =? 1)%positive then nntxt (Z.abs_nat num) ++ pitxt else (nntxt (Z.abs_nat num) ++ pitxt) ++ lit "/" ++ dec (Pos.to_nat den))
        = nntxt (Z.abs_nat num) ++ pitxt ++ (if (den =? 1)%positive then [] else lit "/" ++ dec (Pos.to_nat den))).
      { intros a b. destruct (b =? 1)%positive; rewrite ?app_nil_r, <- ?app_assoc; reflexivity. }
      rewrite !Q in H. apply sg_cut in H; try apply body_minus. destruct H as [Hs H].
      apply span_inj with (P := isdig) in H; try apply nn_dig; try (unfold pitxt; rewrite Ho; reflexivity).
      destruct H as [Hn H]. apply nn_inj in Hn. split; [now apply zsame|]. apply app_inv_head in H.
      destruct (Pos.eqb_spec den 1), (Pos.eqb_spec den' 1); subst; auto; try discriminate.
      apply app_inv_head in H. apply dec_inj in H. now apply Pos2Nat.inj.
Qed.
Lemma flt_not_frac r num den : flt r <> fractxt num den.
Proof.
  intros H. destruct (flt_text r) as [A B]. rewrite H in A, B. destruct (fractxt_cases num den) as [(E & _)|(E & _)].
  - rewrite E in B. discriminate.
  - apply existsb_exists in E. destruct E as (c & Hc & E). rewrite forallb_forall in A. specialize (A _ Hc).
    unfold haspi in E. apply orb_prop in E. destruct E as [E|E]; apply N.eqb_eq in E; subst c; discriminate.
Qed.
Lemma ang_inj a b : ang a = ang b ->
  (recognized a = true /\ recognized b = true /\ lim 1000 a = lim 1000 b) \/
  (recognized a = false /\ recognized b = false /\ flt (a * PI)%R = flt (b * PI)%R).
Proof.
  rewrite !ang_eq. destruct (recognized a), (recognized b); intros H; auto.
  - left. split; auto. split; auto. apply fractxt_inj in H. destruct (lim 1000 a), (lim 1000 b). cbn in H. now destruct H as [-> ->].
  - symmetry in H. now apply flt_not_frac in H.
  - now apply flt_not_frac in H.
Qed.
Lemma ang_fun a b :
  (recognized a = true /\ recognized b = true /\ lim 1000 a = lim 1000 b) \/
  (recognized a = false /\ recognized b = false /\ flt (a * PI)%R = flt (b * PI)%R) -> ang a = ang b.
Proof. rewrite !ang_eq. intros [(-> & -> & ->)|(-> & -> & H)]; auto. Qed.
End Angle.

Section Flow.
Variable ord : nset -> list nat.
Hypothesis ord_spec : forall n s, In n (ord s) <-> mem n s = true.
Variable out : fmt.

Lemma oinj s s' : ord s = ord s' -> s = s'.
Proof.
  intros H. apply nset_ext. intros n. pose proof (ord_spec n s) as A. pose proof (ord_spec n s') as B. rewrite H in A.
  destruct (mem n s), (mem n s'); auto; [symmetry|]; tauto.
Qed.
Definition closing : str := match out with FLatex => lit "\}" | _ => lit "}" end.
Definition opening : str := match out with FLatex => lit "\{" | _ => lit "{" end.
Lemma set_eq d : set_to_str out d = opening ++ join (lit ", ") (List.map dec d) ++ closing.
Proof. unfold set_to_str, opening, closing. destruct out; reflexivity. Qed.
Lemma set_cut d d' r r' : set_to_str out d ++ r = set_to_str out d' ++ r' -> d = d' /\ r = r'.
Proof.
  rewrite !set_eq, <- !app_assoc. intros H. apply app_inv_head in H.
  assert (HJ : forall d, forallb (no [92; 125]%N) (join (lit ", ") (List.map dec d)) = true).
  { intros e. apply join_all; [reflexivity|]. intros x Hx. apply in_map_iff in Hx. destruct Hx as (n & <- & _). now apply dec_no. }
  unfold closing in H.
  assert (E : join (lit ", ") (List.map dec d) = join (lit ", ") (List.map dec d') /\ r = r').
  { destruct out.
    - change (lit "}") with [125%N] in H. cbn [app] in H. apply cut_inj with (D := [92; 125]%N) in H; auto. tauto.
    - change (lit "\}") with [92; 125]%N in H. cbn [app] in H. apply cut_inj with (D := [92; 125]%N) in H; auto.
      destruct H as (H1 & _ & H2). apply cons_inv in H2. tauto.
    - change (lit "}") with [125%N] in H. cbn [app] in H. apply cut_inj with (D := [92; 125]%N) in H; auto. tauto. }
  destruct E as [E ->]. apply (join_dec_inj 44%N [32%N]) in E; auto.
Qed.
Lemma set_cut0 d d' r' : set_to_str out d = set_to_str out d' ++ r' -> d = d' /\ r' = [].
Proof.
  intros H. destruct (set_cut d d' [] r') as [-> E]; [|auto].
  transitivity (set_to_str out d); [apply app_nil_r|exact H].
Qed.
Lemma layers_inj sep l l' : sep <> [] -> join sep (List.map (fun s => set_to_str out (ord s)) l) = join sep (List.map (fun s => set_to_str out (ord s)) l') -> l = l'.
Proof.
  intros Hs. revert l'. induction l as [|s l IH]; intros [|s' l'] H; auto.
  - exfalso. destruct l'; cbn [List.map] in H; rewrite ?join_cons in H; rewrite ?set_eq in H; unfold opening in H; destruct out; discriminate.
  - exfalso. destruct l; cbn [List.map] in H; rewrite ?join_cons in H; rewrite ?set_eq in H; unfold opening in H; destruct out; discriminate.
  - destruct l as [|t l], l' as [|t' l']; cbn [List.map] in H; rewrite ?join_cons in H.
    + cbn [join] in H. destruct (set_cut0 (ord s) (ord s') []) as [E _]; [symmetry; etransitivity; [apply app_nil_r|auto]|].
      now rewrite (oinj _ _ E).
    + exfalso. cbn [join] in H. apply set_cut0 in H. destruct H as [_ E]. apply app_eq_nil in E. tauto.
    + exfalso. symmetry in H. apply set_cut0 in H. destruct H as [_ E]. apply app_eq_nil in E. tauto.
    + apply set_cut in H. destruct H as [E H]. apply app_inv_head in H. rewrite (oinj _ _ E). f_equal. now apply IH.
Qed.
Lemma order_inj l l' : partial_order_to_str ord out l = partial_order_to_str ord out l' -> l = l'.
Proof.
  unfold partial_order_to_str. intros H. apply layers_inj in H; [|destruct out; discriminate].
  rewrite <- (rev_involutive l), <- (rev_involutive l'). now rewrite H.
Qed.

(** ** Correction functions *)
Definition item (k : N) (p : nat * nset) : str := [k] ++ lit "(" ++ dec (fst p) ++ lit ") = " ++ set_to_str out (ord (snd p)).
Lemma item_cut k p p' r r' : item k p ++ r = item k p' ++ r' -> p = p' /\ r = r'.
Proof.
  unfold item. rewrite <- !app_assoc. intros H. apply app_inv_head in H. apply app_inv_head in H.
  apply span_inj with (P := isdig) in H; try apply dec_dig; try reflexivity. destruct H as [Hn H]. apply dec_inj in Hn.
  apply app_inv_head in H. apply set_cut in H. destruct H as [Hs ->]. apply oinj in Hs.
  destruct p, p'; cbn in *; subst; auto.
Qed.
Lemma item_hd k p : exists q, item k p = k :: q.
Proof. unfold item. cbn [app]. eauto. Qed.
Lemma items_cut k sep l l' r r' : (forall q, r <> k :: q) -> (forall q, r' <> k :: q) ->
  (forall q, r <> sep ++ k :: q) -> (forall q, r' <> sep ++ k :: q) ->
  join sep (List.map (item k) l) ++ r = join sep (List.map (item k) l') ++ r' -> l = l' /\ r = r'.
Proof.
  intros H1 H2 H3 H4. revert l'.
  assert (Hh : forall p l, exists q, join sep (List.map (item k) (p :: l)) = k :: q).
  { intros p m. destruct (item_hd k p) as [q E]. cbn [List.map]. destruct m; cbn [List.map]; [exists q; exact E|]. rewrite join_cons, E. cbn [app]. eauto. }
  induction l as [|p l IH]; intros [|p' l'] H; auto.
  - exfalso. destruct (Hh p' l') as [q E]. rewrite E in H. cbn [List.map join app] in H. now apply H1 in H.
  - exfalso. destruct (Hh p l) as [q E]. rewrite E in H. cbn [List.map join app] in H. symmetry in H. now apply H2 in H.
  - destruct l as [|t l], l' as [|t' l']; cbn [List.map] in H; rewrite ?join_cons in H; rewrite <- ?app_assoc in H.
    + cbn [join] in H. apply item_cut in H. destruct H as [-> ->]. auto.
    + exfalso. cbn [join] in H. apply (item_cut k p p') in H. destruct H as [_ H]. destruct (Hh t' l') as [q E].
      apply (H3 (q ++ r')). etransitivity; [exact H|]. f_equal. change (k :: q ++ r') with ((k :: q) ++ r'). f_equal. exact E.
    + exfalso. apply (item_cut k p p') in H. destruct H as [_ H]. destruct (Hh t l) as [q E].
      apply (H4 (q ++ r)). symmetry in H. etransitivity; [exact H|]. f_equal. change (k :: q ++ r) with ((k :: q) ++ r). f_equal. exact E.
    + apply item_cut in H. destruct H as [-> H]. apply app_inv_head in H. destruct (IH (t' :: l')) as [E ->]; auto.
      split; auto. now rewrite E.
Qed.
Definition csep (ml : bool) : str :=
  if ml then match out with FLatex => lit ",\\" | _ => [10%N] end else match out with FLatex => lit ", \;" | _ => lit ", " end.
Lemma cf_eq cf k ml : correction_function_to_str ord out cf [k] ml = join (csep ml) (List.map (item k) cf).
Proof. reflexivity. Qed.
Lemma order_hd l : partial_order_to_str ord out l = [] \/ exists q, partial_order_to_str ord out l = opening ++ q.
Proof.
  unfold partial_order_to_str. destruct (rev l) as [|s m]; [now left|]. right. cbn [List.map].
  destruct m; cbn [List.map]; [cbn [join]|rewrite join_cons]; rewrite set_eq; eexists; rewrite <- ?app_assoc; reflexivity.
Qed.
Definition letterok (k : N) : bool := no [10; 32; 44; 59; 92; 123]%N k.
Lemma comp_not_sep k ml x : letterok k = true -> (forall q, x <> k :: q) ->
  (forall q, component_separator out ml ++ x <> k :: q) /\ (forall q, component_separator out ml ++ x <> csep ml ++ k :: q).
Proof.
  intros Hk Hx. unfold component_separator, csep. split; intros q H.
  - destruct ml, out; cbn in H; apply cons_inv in H; destruct H as [<- _]; discriminate.
  - destruct ml, out; cbn in H; try discriminate; apply cons_inv in H; destruct H as [_ H]; now apply Hx in H.
Qed.
Lemma order_not k l : letterok k = true -> forall q, partial_order_to_str ord out l <> k :: q.
Proof.
  intros Hk q H. destruct (order_hd l) as [E|[q' E]]; rewrite E in H; [discriminate|].
  unfold opening in H. destruct out; cbn in H; apply cons_inv in H; destruct H as [<- _]; discriminate.
Qed.
Lemma flow_inj k cf cf' l l' ml : letterok k = true ->
  flow_to_str ord out cf [k] l ml = flow_to_str ord out cf' [k] l' ml -> cf = cf' /\ l = l'.
Proof.
  intros Hk. unfold flow_to_str. rewrite !join_cons. cbn [join]. rewrite !cf_eq. intros H.
  destruct (comp_not_sep k ml (partial_order_to_str ord out l) Hk (order_not k l Hk)) as [A B].
  destruct (comp_not_sep k ml (partial_order_to_str ord out l') Hk (order_not k l' Hk)) as [A' B'].
  apply items_cut in H; auto. destruct H as [-> H]. split; auto. apply app_inv_head in H. now apply order_inj.
Qed.
Lemma xz_inj x x' z z' l l' ml : xzcorr_to_str ord out x z l ml = xzcorr_to_str ord out x' z' l' ml -> x = x' /\ z = z' /\ l = l'.
Proof.
  unfold xzcorr_to_str. change (lit "x") with [120%N]. change (lit "z") with [122%N]. rewrite !join_cons. cbn [join]. rewrite !cf_eq. intros H.
  assert (Q : forall z l q, join (csep ml) (List.map (item 122) z) ++ component_separator out ml ++ partial_order_to_str ord out l <> 120%N :: q).
  { intros z0 l0 q E. destruct z0 as [|p z0].
    - cbn in E. unfold component_separator in E. destruct ml, out; cbn in E; discriminate.
    - cbn [List.map] in E. destruct (item_hd 122 p) as [q' Ei]. rewrite Ei in E. destruct z0; cbn [List.map] in E; rewrite ?join_cons in E; discriminate. }
  destruct (comp_not_sep 120 ml (join (csep ml) (List.map (item 122) z) ++ component_separator out ml ++ partial_order_to_str ord out l)) as [A B]; auto.
  destruct (comp_not_sep 120 ml (join (csep ml) (List.map (item 122) z') ++ component_separator out ml ++ partial_order_to_str ord out l')) as [A' B']; auto.
  apply items_cut in H; auto. destruct H as [-> H]. apply app_inv_head in H.
  destruct (comp_not_sep 122 ml (partial_order_to_str ord out l) eq_refl (order_not 122 l eq_refl)) as [C D].
  destruct (comp_not_sep 122 ml (partial_order_to_str ord out l') eq_refl (order_not 122 l' eq_refl)) as [C' D'].
  apply items_cut in H; auto. destruct H as [-> H]. apply app_inv_head in H. apply order_inj in H. auto.
Qed.
End Flow.
