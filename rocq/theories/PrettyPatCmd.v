(** What the text of a command and of a pattern determines. *)
From Coq Require Import String Ascii Reals ZArith NArith Arith List Bool Lia.
From Verif Require Import Cplx NSet Fundamentals CliffordDb Clifford Measure Pattern Pretty PrettyPat PrettyPatThm.
Import ListNotations.
Local Open Scope nat_scope.

(** ** What a command shows *)
Inductive mshown := ShBloch (p : plane) (angle : str) | ShPauli (ax : axis) (s : sign).
Inductive shown :=
| ShN (n : nat) | ShE (u v : nat) | ShM (n : nat) (m : mshown) (s t : nset) | ShX (n : nat) (d : nset)
| ShZ (n : nat) (d : nset) | ShC (n : nat) (label : str) | ShS (n : nat) (d : nset) | ShT.
Definition mshow (angle_text : R -> str) (m : measurement) : mshown :=
  match m with MBloch a p => ShBloch p (angle_text a) | MPauli ax s => ShPauli ax s end.
Definition show (angle_text : R -> str) (c : cmd) : shown :=
  match c with
  | CN n _ => ShN n
  | CE u v => ShE u v
  | CM n m s t => ShM n (mshow angle_text m) s t
  | CX n d => ShX n d
  | CZ n d => ShZ n d
  | CC n k => ShC n (clifford_label k)
  | CS n d => ShS n d
  | CT => ShT
  end.
(** the text of a float: digits, a point or an exponent *)
Definition float_text (t : str) : Prop :=
  forallb (fun c => isdig c || existsb (N.eqb c) (lit ".e+-")) t = true /\ existsb (fun c => existsb (N.eqb c) (lit ".e")) t = true.

Section Cmd.
Variable lim : nat -> R -> frac.
Variable flt : R -> str.
Variable ord : nset -> list nat.
Hypothesis flt_text : forall r, float_text (flt r).
Hypothesis ord_spec : forall n s, In n (ord s) <-> mem n s = true.
Variable out : fmt.
Notation ang := (angle_to_str lim flt out).
Notation cstr := (command_to_str lim flt ord out).

Lemma ord_inj s s' : ord s = ord s' -> s = s'.
Proof.
  intros H. apply nset_ext. intros n. pose proof (ord_spec n s) as A. pose proof (ord_spec n s') as B. rewrite H in A.
  destruct (mem n s), (mem n s'); auto; [symmetry|]; tauto.
Qed.

(** ** Angles *)
Definition angchar (c : N) : bool := isdig c || existsb (N.eqb c) (960%N :: lit ".e+-/\pifrac{}").
Lemma dec_ang n : forallb angchar (dec n) = true.
Proof. eapply forallb_impl; [|apply dec_dig]. intros c H. unfold angchar. now rewrite H. Qed.
Lemma flt_ang r : forallb angchar (flt r) = true.
Proof.
  eapply forallb_impl; [|apply flt_text]. intros c H. unfold angchar. apply orb_prop in H. destruct H as [H|H]; [now rewrite H|].
  apply orb_true_iff. right. apply existsb_exists in H. destruct H as (x & Hx & H). apply existsb_exists. exists x. split; [|exact H].
  cbn in Hx |- *. tauto.
Qed.
Lemma flt_ne r : flt r <> [].
Proof. intros H. destruct (flt_text r) as [_ A]. rewrite H in A. discriminate. Qed.
Lemma ang_chars a : forallb angchar (ang a) = true.
Proof.
  unfold angle_to_str. destruct (lim 1000 a) as [num den].
  destruct (negb _); [apply flt_ang|].
  assert (Hs : forallb angchar (if (num <? 0)%Z then lit "-" else []) = true) by (destruct (num <? 0)%Z; reflexivity).
  destruct (den =? 1)%positive.
  - destruct (Z.abs_nat num) as [|[|n]]; [reflexivity| |]; destruct out; repeat apply all_app; auto using dec_ang.
  - destruct (Z.abs_nat num =? 1); destruct out; repeat apply all_app; auto using dec_ang.
Qed.
Lemma ang_ne a : ang a <> [].
Proof.
  unfold angle_to_str. destruct (lim 1000 a) as [num den].
  destruct (negb _); [apply flt_ne|]. destruct (den =? 1)%positive.
  - destruct (Z.abs_nat num) as [|[|n]]; [discriminate| |]; destruct (num <? 0)%Z; try discriminate; destruct out; try discriminate;
      intros H; apply app_eq_nil in H; destruct H as [_ H]; try discriminate; apply app_eq_nil in H; destruct H; discriminate.
  - intros H. apply app_eq_nil in H. destruct H as [_ H]. destruct out; try discriminate;
      apply app_eq_nil in H; destruct H as [_ H]; discriminate.
Qed.
Lemma ang_no D a : forallb (fun c => negb (angchar c)) D = true -> forallb (no D) (ang a) = true.
Proof.
  intros HD. eapply forallb_impl; [|apply ang_chars]. intros c Hc. unfold no. apply negb_true_iff.
  destruct (existsb (N.eqb c) D) eqn:E; auto. apply existsb_exists in E. destruct E as (x & Hx & E).
  apply N.eqb_eq in E. subst x. rewrite forallb_forall in HD. specialize (HD _ Hx). now rewrite Hc in HD.
Qed.
Lemma ang_ok2 a : ok2 (ang a) = true.
Proof.
  assert (Hd : forall n, ok2 (dec n) = true) by (intros; apply ok2_no, dec_no; reflexivity).
  unfold angle_to_str. destruct (lim 1000 a) as [num den].
  destruct (negb _).
  { apply ok2_no. eapply forallb_impl; [|apply flt_text]. intros c H. unfold no. apply negb_true_iff. cbn. rewrite orb_false_r.
    destruct (N.eqb_spec c 92); auto. subst c. discriminate. }
  assert (Hs : ok2 (if (num <? 0)%Z then lit "-" else []) = true) by (destruct (num <? 0)%Z; reflexivity).
  destruct (den =? 1)%positive.
  - destruct (Z.abs_nat num) as [|[|n]]; [reflexivity| |]; repeat apply ok2_app; auto; destruct out; reflexivity.
  - apply ok2_app; auto. destruct (Z.abs_nat num =? 1); destruct out; repeat apply ok2_app; auto; try reflexivity.
Qed.

(** ** Measurements and Clifford labels *)
Lemma label_ok k : clifford_label k <> [] /\ forallb (no [44; 32; 91; 93]%N) (clifford_label k) = true /\ ok2 (clifford_label k) = true.
Proof. destruct k; vm_compute; (split; [discriminate|split; reflexivity]). Qed.
Lemma args_ok m x : In x (msr_args lim flt out m) -> forallb (no [44; 32; 91; 93]%N) x = true /\ x <> [] /\ ok2 x = true.
Proof.
  destruct m as [a p|ax s]; cbn [msr_args]; intros H.
  - apply in_app_or in H. destruct H as [H|[<-|[]]].
    + destruct p; cbn in H; destruct H as [<-|[]] || destruct H; (split; [reflexivity|split; [discriminate|reflexivity]]).
    + split; [apply ang_no; reflexivity|]. split; [apply ang_ne|apply ang_ok2].
  - destruct ax, s; cbn in H; (destruct H as [<-|[]] || destruct H); (split; [reflexivity|split; [discriminate|reflexivity]]).
Qed.
Lemma args_inj m m' : msr_args lim flt out m = msr_args lim flt out m' -> mshow ang m = mshow ang m'.
Proof.
  assert (HX : forall a ax s, [ang a] = [sign_char s ++ axis_name ax] -> False).
  { intros a ax s H. injection H as H. pose proof (ang_chars a) as Ha. rewrite H in Ha. destruct s, ax; discriminate. }
  destruct m as [a p|ax s], m' as [a' p'|ax' s']; cbn [msr_args mshow]; intros H.
  - destruct p, p'; cbn in H; try discriminate; injection H as H; now rewrite H.
  - exfalso. destruct p, ax', s'; cbn [app] in H; try discriminate; eapply HX; apply H.
  - exfalso. destruct p', ax, s; cbn [app] in H; try discriminate; eapply HX; symmetry; apply H.
  - destruct ax, s, ax', s'; cbn in H; try discriminate; reflexivity.
Qed.

(** ** Nodes with arguments *)
Definition arg_ok (x : str) : Prop := forallb (no [44; 32; 91; 93]%N) x = true /\ x <> [] /\ ok2 x = true.
Lemma no_sub D D' a : (forall d, In d D' -> In d D) -> forallb (no D) a = true -> forallb (no D') a = true.
Proof.
  intros HD. apply forallb_impl. unfold no. intros c H. apply negb_true_iff in H. apply negb_true_iff.
  destruct (existsb (N.eqb c) D') eqn:E; auto. rewrite <- H. symmetry. apply existsb_exists in E. destruct E as (x & Hx & E).
  apply existsb_exists. exists x. auto.
Qed.
Lemma args_join_inj l l' : (forall x, In x l \/ In x l' -> arg_ok x) -> join (lit ",") l = join (lit ",") l' -> l = l'.
Proof.
  intros Hl. apply join_inj. intros x Hx. destruct (Hl _ Hx) as (H1 & H2 & _). split; auto.
  eapply no_sub; [|exact H1]. cbn. tauto.
Qed.
Lemma node_inj k k' n n' l l' : (forall x, In x l \/ In x l' -> arg_ok x) ->
  node_str out [k] n l [] = node_str out [k'] n' l' [] -> k = k' /\ n = n' /\ l = l'.
Proof.
  intros Hl H. unfold node_str in H. destruct out.
  - rewrite !app_nil_r in H. change (lit "(") with [40%N] in H. change (lit ")") with [41%N] in H. cbn [app] in H.
    injection H as -> H. change (join (lit ",") (dec n :: l) ++ [41%N] = join (lit ",") (dec n' :: l') ++ [41%N]) in H.
    apply app_inj_tail in H. destruct H as [H _].
    apply (join_inj 44%N []) in H. { injection H as H ->. apply dec_inj in H. auto. }
    intros x Hx. assert (D : (exists m, x = dec m) \/ In x l \/ In x l') by (destruct Hx as [[<-|Hx]|[<-|Hx]]; [left; now exists n|auto|left; now exists n'|auto]).
    destruct D as [(m & ->)|D]; [split; [apply dec_no; reflexivity|apply dec_ne]|].
    destruct (Hl _ D) as (H1 & H2 & _). split; auto. eapply no_sub; [|exact H1]. cbn. tauto.
  - change (lit "_{") with [95; 123]%N in H. change (lit "}") with [125%N] in H. change (lit "^{") with [94; 123]%N in H. cbn [app] in H.
    injection H as -> H. apply span_inj with (P := isdig) in H; try apply dec_dig; try reflexivity.
    destruct H as [Hn H]. apply dec_inj in Hn. split; auto. split; auto. injection H as H.
    destruct l as [|x l], l' as [|x' l']; auto; try discriminate. apply args_join_inj; auto.
    injection H as H. now apply app_inj_tail in H.
  - change (lit "(") with [40%N] in H. change (lit ")") with [41%N] in H. cbn [app] in H. injection H as -> H.
    apply span_inj with (P := issub) in H; try apply decb_sub; [|destruct l; reflexivity|destruct l'; reflexivity].
    destruct H as [Hn H]. apply decb_inj in Hn. split; auto. split; auto.
    destruct l as [|x l], l' as [|x' l']; auto; try discriminate. apply args_join_inj; auto.
    cbn [app] in H. injection H as H. now apply app_inj_tail in H.
Qed.
(** ** Nodes with a domain *)
Lemma comma_inj l l' : join (lit ",") (List.map dec l) = join (lit ",") (List.map dec l') -> l = l'.
Proof. now apply join_dec_inj. Qed.
Lemma comma_chars P l : P 44%N = true -> (forall c, isdig c = true -> P c = true) -> forallb P (join (lit ",") (List.map dec l)) = true.
Proof.
  intros HP HD. apply join_all; [cbn; now rewrite HP|]. intros x Hx. apply in_map_iff in Hx. destruct Hx as (n & <- & _).
  eapply forallb_impl; [|apply dec_dig]. auto.
Qed.
Lemma sup_join_inj l l' : join [8314%N] (List.map dect l) = join [8314%N] (List.map dect l') -> l = l'.
Proof.
  intros H. apply join_inj in H; [now apply map_inj in H; [|apply dect_inj]|].
  intros x Hx. rewrite !in_map_iff in Hx. destruct Hx as [(n & <- & _)|(n & <- & _)]; (split; [|apply dect_ne]);
    (eapply forallb_impl; [|apply dect_sup]); intros c Hc; unfold no; cbn; rewrite orb_false_r; apply negb_true_iff;
    destruct (N.eqb_spec c 8314); auto; subst c; discriminate.
Qed.
Lemma sub_join_inj l l' : join [8330%N] (List.map decb l) = join [8330%N] (List.map decb l') -> l = l'.
Proof.
  intros H. apply join_inj in H; [now apply map_inj in H; [|apply decb_inj]|].
  intros x Hx. rewrite !in_map_iff in Hx. destruct Hx as [(n & <- & _)|(n & <- & _)]; (split; [|apply decb_ne]);
    (eapply forallb_impl; [|apply decb_sub]); intros c Hc; unfold no; cbn; rewrite orb_false_r; apply negb_true_iff;
    destruct (N.eqb_spec c 8330); auto; subst c; discriminate.
Qed.
Lemma s_str_inj l l' : s_str out l = s_str out l' -> l = l'.
Proof.
  unfold s_str. destruct out; intros H; [| |now apply sup_join_inj].
  - cbn [app lit] in H. apply app_inv_head in H. apply app_inv_tail in H. now apply comma_inj.
  - apply app_inv_head in H. apply app_inv_tail in H. now apply comma_inj.
Qed.
Lemma t_str_inj l l' : t_str out l = t_str out l' -> l = l'.
Proof.
  unfold t_str. destruct out; intros H; [| |now apply sub_join_inj].
  - apply app_inv_head in H. apply app_inv_tail in H. now apply comma_inj.
  - apply app_inv_head in H. apply app_inv_tail in H. now apply comma_inj.
Qed.
Lemma join_ne_nil sep x l : x <> [] -> join sep (x :: l) <> [].
Proof. destruct l; [auto|]. rewrite join_cons. intros Hx H. apply app_eq_nil in H. tauto. Qed.
Lemma s_str_ne n l : s_str out (n :: l) <> [].
Proof.
  unfold s_str. destruct out; try discriminate. cbn [List.map]. apply join_ne_nil, dect_ne.
Qed.
Lemma t_str_ne n l : t_str out (n :: l) <> [].
Proof.
  unfold t_str. destruct out; try discriminate. cbn [List.map]. apply join_ne_nil, decb_ne.
Qed.
Lemma corr_inj k k' n n' d d' : corr_str out [k] n d = corr_str out [k'] n' d' -> k = k' /\ n = n' /\ d = d'.
Proof.
  intros H. unfold corr_str, node_str in H. destruct out eqn:Ho.
  - rewrite !app_nil_r in H. cbn [app] in H. change (lit "(") with [40%N] in H. cbn [app] in H. apply cons_inv in H. destruct H as [-> H]. apply cons_inv in H. destruct H as [_ H].
    assert (E : forall n d, join (lit ",") (dec n :: match d with [] => [] | _ :: _ => [lit "{" ++ join (lit ",") (List.map dec d) ++ lit "}"] end) ++ lit ")"
       = dec n ++ match d with [] => lit ")" | _ :: _ => lit ",{" ++ join (lit ",") (List.map dec d) ++ lit "})" end).
    { intros m [|e e']; [reflexivity|]. set (J := List.map dec (e :: e')). change (join (lit ",") [dec m; lit "{" ++ join (lit ",") J ++ lit "}"])
        with (dec m ++ lit "," ++ lit "{" ++ join (lit ",") J ++ lit "}"). rewrite <- !app_assoc. reflexivity. }
    rewrite !E in H. apply span_inj with (P := isdig) in H; try apply dec_dig; [|destruct d; reflexivity|destruct d'; reflexivity].
    destruct H as [Hn H]. apply dec_inj in Hn. split; auto. split; auto. destruct d, d'; auto; try discriminate.
    apply app_inv_head in H. apply app_inv_tail in H. now apply comma_inj.
  - rewrite !app_nil_r in H. rewrite <- !app_assoc in H. change (lit "_{") with [95; 123]%N in H. cbn [app] in H. injection H as -> H.
    apply span_inj with (P := isdig) in H; try apply dec_dig; try reflexivity.
    destruct H as [Hn H]. apply dec_inj in Hn. split; auto. split; auto. apply cons_inv in H. destruct H as [_ H].
    destruct d, d'; auto; try discriminate.
    pose proof s_str_inj as Hi. rewrite Ho in Hi. apply Hi. exact H.
  - rewrite !app_nil_r in H. rewrite <- !app_assoc in H. cbn [app] in H. injection H as -> H.
    assert (Hh : forall n l, hd_no issub (s_str FUnicode (n :: l)) = true).
    { intros m l. unfold s_str. cbn [List.map]. pose proof (dect_ne m) as A. pose proof (dect_sup m) as B.
      change (List.map sup (dec m)) with (dect m).
      assert (C : hd_no issub (dect m) = true).
      { destruct (dect m) as [|c r]; [easy|]. cbn in B |- *. apply andb_prop in B. destruct B as [B _].
        apply negb_true_iff. unfold issub, issup in *. destruct ((8320 <=? c) && (c <=? 8329))%N eqn:E; auto.
        apply andb_prop in E. rewrite !N.leb_le in E. rewrite !orb_true_iff, andb_true_iff, !N.eqb_eq, !N.leb_le in B. lia. }
      destruct (List.map _ l); [exact C|]. rewrite join_cons. destruct (dect m); [easy|exact C]. }
    apply span_inj with (P := issub) in H; try apply decb_sub; [|destruct d; [reflexivity|apply Hh]|destruct d'; [reflexivity|apply Hh]].
    destruct H as [Hn H]. apply decb_inj in Hn. split; auto. split; auto.
    pose proof s_str_ne as Hne. rewrite Ho in Hne.
    destruct d, d'; auto; [symmetry in H; now apply Hne in H|now apply Hne in H|].
    pose proof s_str_inj as Hi. rewrite Ho in Hi. now apply Hi.
Qed.

(** ** Measurements with domains *)
Definition tp (t : list nat) : str := match t with [] => [] | _ => t_str out t end.
Definition sp (s : list nat) : str := match s with [] => [] | _ => s_str out s end.
Definition mstr (body : str) (s t : list nat) : str :=
  match s, t with [], [] => body | _, _ => tp t ++ lit "[" ++ body ++ lit "]" ++ sp s end.
Lemma tp_inj t t' : tp t = tp t' -> t = t'.
Proof.
  destruct t, t'; cbn [tp]; intros H; auto; [symmetry in H; now apply t_str_ne in H|now apply t_str_ne in H|now apply t_str_inj].
Qed.
Lemma sp_inj t t' : sp t = sp t' -> t = t'.
Proof.
  destruct t, t'; cbn [sp]; intros H; auto; [symmetry in H; now apply s_str_ne in H|now apply s_str_ne in H|now apply s_str_inj].
Qed.
Lemma notin_no D (P : N -> bool) a : forallb (fun c => negb (P c)) D = true -> forallb P a = true -> forallb (no D) a = true.
Proof.
  intros HD. apply forallb_impl. intros c Hc. unfold no. apply negb_true_iff.
  destruct (existsb (N.eqb c) D) eqn:E; auto. apply existsb_exists in E. destruct E as (x & Hx & E).
  apply N.eqb_eq in E. subst x. rewrite forallb_forall in HD. specialize (HD _ Hx). now rewrite Hc in HD.
Qed.
Lemma tp_no t : forallb (no [32; 91; 92; 93]%N) (tp t) = true.
Proof.
  destruct t as [|n t]; [reflexivity|]. unfold tp, t_str.
  assert (HJ : forallb (no [32; 91; 92; 93]%N) (join (lit ",") (List.map dec (n :: t))) = true).
  { apply comma_chars; [reflexivity|]. intros c Hc. digcases Hc; reflexivity. }
  destruct out; repeat apply all_app; auto.
  apply join_all; [reflexivity|]. intros x Hx. apply in_map_iff in Hx. destruct Hx as (m & <- & _).
  eapply notin_no; [|apply decb_sub]. reflexivity.
Qed.
Lemma sp_no t : forallb (no [32; 91; 92; 93]%N) (sp t) = true.
Proof.
  destruct t as [|n t]; [reflexivity|]. unfold sp, s_str.
  assert (HJ : forallb (no [32; 91; 92; 93]%N) (join (lit ",") (List.map dec (n :: t))) = true).
  { apply comma_chars; [reflexivity|]. intros c Hc. digcases Hc; reflexivity. }
  destruct out; repeat apply all_app; auto.
  apply join_all; [reflexivity|]. intros x Hx. apply in_map_iff in Hx. destruct Hx as (m & <- & _).
  eapply notin_no; [|apply dect_sup]. reflexivity.
Qed.
Lemma mstr_inj b b' s s' t t' : forallb (no [91; 93]%N) b = true -> forallb (no [91; 93]%N) b' = true ->
  mstr b s t = mstr b' s' t' -> b = b' /\ s = s' /\ t = t'.
Proof.
  intros Hb Hb' H.
  assert (Hcut : tp t ++ lit "[" ++ b ++ lit "]" ++ sp s = tp t' ++ lit "[" ++ b' ++ lit "]" ++ sp s' -> b = b' /\ s = s' /\ t = t').
  { change (lit "[") with [91%N]. change (lit "]") with [93%N]. cbn [app]. intros E.
    apply cut_inj with (D := [91; 93]%N) in E; try reflexivity;
      [|eapply no_sub; [|apply tp_no]; cbn; tauto|eapply no_sub; [|apply tp_no]; cbn; tauto].
    destruct E as (Et & _ & E). apply cut_inj with (D := [91; 93]%N) in E; auto.
    destruct E as (-> & _ & E). apply tp_inj in Et. apply sp_inj in E. auto. }
  assert (Habs : forall s t b b', forallb (no [91; 93]%N) b = true -> b = tp t ++ lit "[" ++ b' ++ lit "]" ++ sp s -> False).
  { intros s0 t0 b0 b1 Hb0 E. symmetry in E. change (lit "[") with [91%N] in E. cbn [app] in E.
    eapply cut_absurd; [exact Hb0| |exact E]. reflexivity. }
  destruct s as [|x s], t as [|y t], s' as [|x' s'], t' as [|y' t']; cbn [mstr] in H; auto;
    try (exfalso; now apply Habs in H); try (exfalso; symmetry in H; now apply Habs in H).
Qed.
Lemma dec_ok D n : forallb (fun c => negb (isdig c)) D = true -> forallb (no D) (dec n) = true.
Proof. apply dec_no. Qed.
Lemma node_no l n k : (forall x, In x l -> arg_ok x) -> no [32; 91; 93]%N k = true ->
  forallb (no [32; 91; 93]%N) (node_str out [k] n l []) = true.
Proof.
  intros Hl Hk. unfold node_str.
  assert (HJ : forallb (no [32; 91; 93]%N) (join (lit ",") l) = true).
  { apply join_all; [reflexivity|]. intros x Hx. eapply no_sub; [|apply (Hl x Hx)]. cbn. tauto. }
  assert (Hb : forallb (no [32; 91; 93]%N) (List.map sub (dec n)) = true) by (eapply notin_no; [|apply decb_sub]; reflexivity).
  assert (Hn : forallb (no [32; 91; 93]%N) [k] = true) by (cbn; now rewrite Hk).
  destruct out; (apply all_app; [exact Hn|]).
  - rewrite app_nil_r. repeat apply all_app; try reflexivity. apply join_all; [reflexivity|].
    intros x [<-|Hx]; [now apply dec_no|]. eapply no_sub; [|apply (Hl x Hx)]. cbn. tauto.
  - repeat apply all_app; try reflexivity; [now apply dec_no|]. destruct l; [reflexivity|]. repeat apply all_app; auto.
  - repeat apply all_app; auto. destruct l; [reflexivity|]. repeat apply all_app; auto.
Qed.
Lemma join_ok2 sep l : ok2 sep = true -> (forall x, In x l -> ok2 x = true) -> ok2 (join sep l) = true.
Proof.
  intros Hs. induction l as [|x l IH]; intros H; auto. destruct l; [cbn; apply H; now left|].
  rewrite join_cons. repeat apply ok2_app; auto; [apply H; now left|apply IH; intros; apply H; now right].
Qed.
Lemma dec_ok2 n : ok2 (dec n) = true.
Proof. apply ok2_no, dec_no. reflexivity. Qed.
Lemma node_ok2 l n k : (forall x, In x l -> arg_ok x) -> (k =? 92)%N = false -> ok2 (node_str out [k] n l []) = true.
Proof.
  intros Hl Hk. unfold node_str.
  assert (HJ : ok2 (join (lit ",") l) = true) by (apply join_ok2; [reflexivity|]; intros x Hx; apply (Hl x Hx)).
  assert (Hb : ok2 (List.map sub (dec n)) = true) by (apply ok2_no; eapply notin_no; [|apply decb_sub]; reflexivity).
  assert (Hn : ok2 [k] = true) by (cbn; now rewrite Hk).
  destruct out; (apply ok2_app; [exact Hn|]).
  - rewrite app_nil_r. repeat apply ok2_app; try reflexivity. apply join_ok2; [reflexivity|].
    intros x [<-|Hx]; [apply dec_ok2|]. apply (Hl x Hx).
  - repeat apply ok2_app; try reflexivity; [apply dec_ok2|]. destruct l; [reflexivity|]. repeat apply ok2_app; auto.
  - repeat apply ok2_app; auto. destruct l; [reflexivity|]. repeat apply ok2_app; auto.
Qed.

(** ** Commands *)
Lemma cm_str n m s t : cstr (CM n m s t) = mstr (node_str out (lit "M") n (msr_args lim flt out m) []) (ord s) (ord t).
Proof. unfold command_to_str, mstr, tp, sp. destruct (ord s), (ord t); reflexivity. Qed.
Lemma cn_str n st : cstr (CN n st) = corr_str out (lit "N") n [].
Proof. unfold command_to_str, corr_str. destruct out; now rewrite app_nil_r. Qed.
Definition letter (c : cmd) : N :=
  match c with CN _ _ => 78 | CE _ _ => 69 | CM _ _ _ _ => 77 | CX _ _ => 88 | CZ _ _ => 90 | CC _ _ => 67 | CS _ _ => 83 | CT => 84 end%N.
Definition letters : list N := [78; 69; 88; 90; 67; 83; 84]%N.
Lemma node_hd k n l d : exists r, node_str out [k] n l d = k :: r.
Proof. unfold node_str. destruct out; cbn [app]; eauto. Qed.
Lemma hd_ex {P : N -> bool} (a : str) : a <> [] -> forallb P a = true -> exists x r, a = x :: r /\ P x = true.
Proof. destruct a as [|x r]; [easy|]. cbn. intros _ H. apply andb_prop in H. exists x, r. tauto. Qed.
Lemma cmd_hd c : exists x r, cstr c = x :: r /\
  match c with CM _ _ _ _ => no letters x = true | _ => x = letter c end.
Proof.
  assert (Hc : forall k n d, exists r, corr_str out [k] n d = k :: r).
  { intros k n d. unfold corr_str. destruct (node_hd k n [] d) as [r E]. rewrite E. cbn [app]. eauto. }
  destruct c as [n st|u v|n m s t|n d|n d|n k|n d|]; cbn [letter].
  - rewrite cn_str. destruct (Hc 78%N n []) as [r E]. exists 78%N, r. auto.
  - exists 69%N. eexists. split; [reflexivity|reflexivity].
  - rewrite cm_str. destruct (node_hd 77 n (msr_args lim flt out m) []) as [r E]. change (lit "M") with [77%N]. rewrite E.
    assert (Hcase : exists x r', tp (ord t) ++ lit "[" ++ (77%N :: r) ++ lit "]" ++ sp (ord s) = x :: r' /\ no letters x = true).
    { destruct (ord t) as [|y l]; [exists 91%N; eexists; split; reflexivity|].
      destruct (hd_ex (P := no letters) (tp (y :: l))) as (x & r' & Ex & Hx).
      - cbn [tp]. apply t_str_ne.
      - unfold tp, t_str. assert (HJ : forallb (no letters) (join (lit ",") (List.map dec (y :: l))) = true).
        { apply comma_chars; [reflexivity|]. intros c Hc'. digcases Hc'; reflexivity. }
        destruct out; repeat apply all_app; auto.
        apply join_all; [reflexivity|]. intros z Hz. apply in_map_iff in Hz. destruct Hz as (p & <- & _).
        eapply notin_no; [|apply decb_sub]. reflexivity.
      - rewrite Ex. cbn [app]. eauto. }
    unfold mstr. destruct (ord s), (ord t); auto. exists 77%N, r. auto.
  - destruct (Hc 88%N n (ord d)) as [r E]. exists 88%N, r. auto.
  - destruct (Hc 90%N n (ord d)) as [r E]. exists 90%N, r. auto.
  - destruct (node_hd 67%N n [clifford_label k] []) as [r E]. exists 67%N, r. auto.
  - destruct (Hc 83%N n (ord d)) as [r E]. exists 83%N, r. auto.
  - exists 84%N, []. auto.
Qed.
Lemma e_inj u v u' v' : cstr (CE u v) = cstr (CE u' v') -> u = u' /\ v = v'.
Proof.
  unfold command_to_str. intros H. apply app_inv_head in H. destruct out.
  - change (lit "(") with [40%N] in H. apply app_inv_head in H.
    apply span_inj with (P := isdig) in H; try apply dec_dig; try reflexivity.
    destruct H as [Hu H]. apply app_inv_head in H. apply app_inv_tail in H. split; now apply dec_inj.
  - apply app_inv_head in H.
    apply span_inj with (P := isdig) in H; try apply dec_dig; try reflexivity.
    destruct H as [Hu H]. apply app_inv_head in H. apply app_inv_tail in H. split; now apply dec_inj.
  - apply span_inj with (P := issub) in H; try apply decb_sub; try reflexivity.
    destruct H as [Hu H]. apply app_inv_head in H. split; now apply decb_inj.
Qed.
Lemma cmd_inj c c' : cstr c = cstr c' -> show ang c = show ang c'.
Proof.
  intros H.
  assert (Hk : letter c = letter c').
  { destruct (cmd_hd c) as (x & r & E & Hx), (cmd_hd c') as (x' & r' & E' & Hx'). rewrite E, E' in H. injection H as -> _.
    destruct c, c'; try subst x'; cbn [letter] in *; try reflexivity; discriminate. }
  assert (Hx : forall n d n' d' k, corr_str out [k] n (ord d) = corr_str out [k] n' (ord d') -> n = n' /\ d = d').
  { intros n d n' d' k E. apply corr_inj in E. destruct E as (_ & -> & E). apply ord_inj in E. auto. }
  destruct c as [n st|u v|n m s t|n d|n d|n k|n d|], c' as [n' st'|u' v'|n' m' s' t'|n' d'|n' d'|n' k'|n' d'|]; try discriminate; cbn [show].
  - rewrite !cn_str in H. apply corr_inj in H. now destruct H as (_ & -> & _).
  - apply e_inj in H. now destruct H as [-> ->].
  - rewrite !cm_str in H.
    assert (Hb : forall n m, forallb (no [91; 93]%N) (node_str out (lit "M") n (msr_args lim flt out m) []) = true).
    { intros n0 m0. eapply no_sub; [|apply (node_no _ n0 77%N)]; [cbn; tauto|intros x Hx0; apply (args_ok _ _ Hx0)|reflexivity]. }
    apply mstr_inj in H; auto. destruct H as (H & Es & Et). apply ord_inj in Es, Et. subst s' t'.
    apply node_inj in H; [|intros x [Hx0|Hx0]; apply (args_ok _ _ Hx0)]. destruct H as (_ & -> & H). apply args_inj in H. now rewrite H.
  - apply Hx in H. now destruct H as [-> ->].
  - apply Hx in H. now destruct H as [-> ->].
  - cbn [command_to_str] in H. apply node_inj in H.
    + destruct H as (_ & -> & H). injection H as H. now rewrite H.
    + intros x Hx0. destruct Hx0 as [[<-|[]]|[<-|[]]]; destruct (label_ok k), (label_ok k'); unfold arg_ok; tauto.
  - apply Hx in H. now destruct H as [-> ->].
  - reflexivity.
Qed.
Lemma mshow_args m m' : mshow ang m = mshow ang m' -> msr_args lim flt out m = msr_args lim flt out m'.
Proof. destruct m, m'; cbn [mshow]; intros H; try discriminate; injection H as -> H; cbn [msr_args]; now rewrite H. Qed.
Lemma cmd_fun c c' : show ang c = show ang c' -> cstr c = cstr c'.
Proof.
  destruct c as [n st|u v|n m s t|n d|n d|n k|n d|], c' as [n' st'|u' v'|n' m' s' t'|n' d'|n' d'|n' k'|n' d'|]; cbn [show]; intros H; try discriminate; auto.
  - now injection H as ->.
  - now injection H as -> ->.
  - injection H as -> H -> ->. rewrite !cm_str. apply mshow_args in H. now rewrite H.
  - now injection H as -> ->.
  - now injection H as -> ->.
  - injection H as -> H. cbn [command_to_str]. now rewrite H.
  - now injection H as -> ->.
Qed.
Lemma corr_no_sp k n d : no [32; 92]%N k = true -> forallb (no [32; 92]%N) (corr_str out [k] n d) = true.
Proof.
  intros Hk. unfold corr_str, node_str.
  assert (Hn : forallb (no [32; 92]%N) [k] = true) by (cbn; now rewrite Hk).
  assert (HJ : forallb (no [32; 92]%N) (join (lit ",") (List.map dec d)) = true).
  { apply comma_chars; [reflexivity|]. intros c Hc. digcases Hc; reflexivity. }
  assert (Hs : forallb (no [32; 92]%N) (sp d) = true) by (eapply no_sub; [|apply sp_no]; cbn; tauto).
  assert (Hb : forallb (no [32; 92]%N) (List.map sub (dec n)) = true) by (eapply notin_no; [|apply decb_sub]; reflexivity).
  unfold sp in Hs. destruct out; (apply all_app; [apply all_app; [exact Hn|]|]); try reflexivity.
  - repeat apply all_app; try reflexivity. apply join_all; [reflexivity|]. intros x [<-|Hx]; [now apply dec_no|].
    destruct d; [easy|]. destruct Hx as [<-|[]]. repeat apply all_app; try reflexivity. exact HJ.
  - rewrite app_nil_r. repeat apply all_app; try reflexivity. now apply dec_no.
  - exact Hs.
  - rewrite app_nil_r. exact Hb.
  - exact Hs.
Qed.
Lemma cmd_no_sp c : forallb (no [32%N]) (cstr c) = true.
Proof.
  assert (Hx : forall k n d, no [32; 92]%N k = true -> forallb (no [32%N]) (corr_str out [k] n d) = true)
    by (intros k n d Hk; eapply no_sub; [|apply (corr_no_sp k n d Hk)]; cbn; tauto).
  assert (Hnode : forall k n l, (forall x, In x l -> arg_ok x) -> no [32; 91; 93]%N k = true -> forallb (no [32%N]) (node_str out [k] n l []) = true)
    by (intros k n l Hl Hk; eapply no_sub; [|apply (node_no l n k Hl Hk)]; cbn; tauto).
  destruct c as [n st|u v|n m s t|n d|n d|n k|n d|]; try (now apply Hx).
  - rewrite cn_str. now apply Hx.
  - unfold command_to_str. apply all_app; [reflexivity|].
    assert (Hb : forall n, forallb (no [32%N]) (List.map sub (dec n)) = true) by (intros n; eapply notin_no; [|apply decb_sub]; reflexivity).
    destruct out; repeat apply all_app; auto; now apply dec_no.
  - rewrite cm_str. assert (Hm : forallb (no [32%N]) (node_str out (lit "M") n (msr_args lim flt out m) []) = true)
      by (apply (Hnode 77%N); [intros x H; apply (args_ok _ _ H)|reflexivity]).
    assert (H1 : forallb (no [32%N]) (tp (ord t)) = true) by (eapply no_sub; [|apply tp_no]; cbn; tauto).
    assert (H2 : forallb (no [32%N]) (sp (ord s)) = true) by (eapply no_sub; [|apply sp_no]; cbn; tauto).
    unfold mstr. destruct (ord s), (ord t); auto; repeat apply all_app; auto.
  - apply (Hnode 67%N); [|reflexivity]. intros x [<-|[]]. destruct (label_ok k). unfold arg_ok. tauto.
  - reflexivity.
Qed.
Lemma cmd_ok2 c : ok2 (cstr c) = true.
Proof.
  assert (Hx : forall k n d, no [32; 92]%N k = true -> ok2 (corr_str out [k] n d) = true)
    by (intros k n d Hk; apply ok2_no; eapply no_sub; [|apply (corr_no_sp k n d Hk)]; cbn; tauto).
  destruct c as [n st|u v|n m s t|n d|n d|n k|n d|]; try (now apply Hx).
  - rewrite cn_str. now apply Hx.
  - unfold command_to_str. apply ok2_app; [reflexivity|].
    assert (Hb : forall n, ok2 (List.map sub (dec n)) = true) by (intros n; apply ok2_no; eapply notin_no; [|apply decb_sub]; reflexivity).
    destruct out; repeat apply ok2_app; auto using dec_ok2.
  - rewrite cm_str. assert (Hm : ok2 (node_str out (lit "M") n (msr_args lim flt out m) []) = true)
      by (apply (node_ok2 _ n 77%N); [intros x H; apply (args_ok _ _ H)|reflexivity]).
    assert (H1 : ok2 (tp (ord t)) = true) by (apply ok2_no; eapply no_sub; [|apply tp_no]; cbn; tauto).
    assert (H2 : ok2 (sp (ord s)) = true) by (apply ok2_no; eapply no_sub; [|apply sp_no]; cbn; tauto).
    unfold mstr. destruct (ord s), (ord t); auto; repeat apply ok2_app; auto.
  - apply (node_ok2 _ n 67%N); [|reflexivity]. intros x [<-|[]]. destruct (label_ok k). unfold arg_ok. tauto.
  - reflexivity.
Qed.
Lemma cmd_ne c : cstr c <> [].
Proof. destruct (cmd_hd c) as (x & r & -> & _). discriminate. Qed.

(** ** Patterns *)
Definition psep : str := match out with FLatex => lit "\," | _ => lit " " end.
Lemma seq_inj l l' : join psep (List.map cstr l) = join psep (List.map cstr l') -> List.map (show ang) l = List.map (show ang) l'.
Proof.
  intros H.
  assert (E : List.map cstr l = List.map cstr l').
  { unfold psep in H. destruct out eqn:Ho.
    - apply (join_inj 32%N []) in H; auto. intros x Hx. rewrite !in_map_iff in Hx. rewrite <- Ho in Hx.
      destruct Hx as [(c & <- & _)|(c & <- & _)]; (split; [apply cmd_no_sp|apply cmd_ne]).
    - apply join2_inj in H; auto. intros x Hx. rewrite !in_map_iff in Hx. rewrite <- Ho in Hx.
      destruct Hx as [(c & <- & _)|(c & <- & _)]; (split; [apply cmd_ok2|apply cmd_ne]).
    - apply (join_inj 32%N []) in H; auto. intros x Hx. rewrite !in_map_iff in Hx. rewrite <- Ho in Hx.
      destruct Hx as [(c & <- & _)|(c & <- & _)]; (split; [apply cmd_no_sp|apply cmd_ne]). }
  clear H. revert l' E. induction l as [|c l IH]; intros [|c' l'] E; try discriminate; auto.
  injection E as E0 E. cbn [List.map]. f_equal; [now apply cmd_inj|]. now apply IH.
Qed.
Lemma seq_fun l l' : List.map (show ang) l = List.map (show ang) l' -> List.map cstr l = List.map cstr l'.
Proof.
  revert l'. induction l as [|c l IH]; intros [|c' l'] E; try discriminate; auto.
  injection E as E0 E. cbn [List.map]. f_equal; [now apply cmd_fun|]. now apply IH.
Qed.
End Cmd.
