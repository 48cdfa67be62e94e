(** C59: the printed text of a pattern, a flow or an XZ-corrections object. *)
From Coq Require Import String Ascii Reals Lra ZArith NArith Arith List Bool Lia Znumtheory.
From Verif Require Import Cplx Mat2 NSet Fundamentals CliffordDb Clifford Measure Pattern Inspect PropCliff Pretty PrettySpec PropPretty PrettyPat PrettyPatThm PrettyPatCmd PrettyPatFlow.
Import ListNotations.
Local Open Scope nat_scope.

(** the iteration order of Python sets: every element, no other *)
Definition ord_ok (ord : nset -> list nat) : Prop := forall n s, In n (ord s) <-> mem n s = true.
Definition flt_ok (flt : R -> str) : Prop := forall r, float_text (flt r).

(** ** Commands and patterns *)
(** two commands have the same text exactly when they show the same kind, nodes,
    domains, plane and angle text (or Pauli measurement) and gate label; the
    state of an N is not shown *)
Theorem C59_command : forall lim flt ord o, flt_ok flt -> ord_ok ord -> forall c c',
  command_to_str lim flt ord o c = command_to_str lim flt ord o c' <-> show (angle_to_str lim flt o) c = show (angle_to_str lim flt o) c'.
Proof. intros lim flt ord o Hf Ho c c'. split; [now apply cmd_inj|now apply cmd_fun]. Qed.

Definition displayed (ltr : bool) (target : option (cmd -> bool)) (l : list cmd) : list cmd :=
  let l := match target with Some f => filter f l | None => l end in if ltr then l else rev l.
Definition separator (o : fmt) : str := match o with FLatex => lit "\," | _ => lit " " end.
Definition wrapped (o : fmt) (s : str) : str := match o with FLatex => lit "\(" ++ s ++ lit "\)" | _ => s end.
Lemma wrapped_inj o s s' : wrapped o s = wrapped o s' -> s = s'.
Proof. destruct o; cbn [wrapped]; auto. intros H. apply app_inv_head in H. now apply app_inv_tail in H. Qed.
Lemma no_limit lim flt ord o ltr target l :
  pattern_to_str lim flt ord o ltr None target l = wrapped o (join (separator o) (List.map (command_to_str lim flt ord o) (displayed ltr target l))).
Proof. reflexivity. Qed.
Lemma with_limit lim flt ord o ltr k target l :
  pattern_to_str lim flt ord o ltr (Some k) target l =
  let d := displayed ltr target l in
  if (k <? Z.of_nat (List.length d))%Z then
    wrapped o (join (separator o) (List.map (command_to_str lim flt ord o) (pslice d (k - 1)))) ++
    lit "...(" ++ dec (Z.to_nat (Z.of_nat (List.length d) - k + 1)) ++ lit " more commands)"
  else wrapped o (join (separator o) (List.map (command_to_str lim flt ord o) d)).
Proof. reflexivity. Qed.
(** the whole text (no limit) determines the list of selected commands, as far as
    a command shows: spaces, brackets, digits and separators never run together *)
Theorem C59_pattern : forall lim flt ord o, flt_ok flt -> ord_ok ord -> forall ltr target l l',
  pattern_to_str lim flt ord o ltr None target l = pattern_to_str lim flt ord o ltr None target l' <->
  List.map (show (angle_to_str lim flt o)) (match target with Some f => filter f l | None => l end) =
  List.map (show (angle_to_str lim flt o)) (match target with Some f => filter f l' | None => l' end).
Proof.
  intros lim flt ord o Hf Ho ltr target l l'. rewrite !no_limit. unfold displayed.
  set (m := match target with Some f => filter f l | None => l end). set (m' := match target with Some f => filter f l' | None => l' end).
  split; intros H.
  - apply wrapped_inj in H. change (separator o) with (psep o) in H. apply (seq_inj lim flt ord Hf Ho o) in H.
    destruct ltr; auto. rewrite !map_rev in H. apply (f_equal (@rev _)) in H. now rewrite !rev_involutive in H.
  - do 2 f_equal. apply (seq_fun lim flt ord Ho o) || apply (seq_fun lim flt ord o). destruct ltr; auto. now rewrite !map_rev, H.
Qed.
Lemma join_app sep a b : a <> [] -> b <> [] -> join sep (a ++ b) = join sep a ++ sep ++ join sep b.
Proof.
  intros Ha Hb. induction a as [|x a IH]; [easy|]. destruct a as [|y a].
  - cbn [app]. destruct b; [easy|]. now rewrite join_cons.
  - change ((x :: y :: a) ++ b) with (x :: y :: (a ++ b)). rewrite !join_cons. change (y :: a ++ b) with ((y :: a) ++ b).
    rewrite IH by discriminate. now rewrite <- !app_assoc.
Qed.
(** the first commands are on the left, or on the right *)
Theorem C59_direction : forall lim flt ord o l1 l2, o <> FLatex -> l1 <> [] -> l2 <> [] ->
  let text ltr l := pattern_to_str lim flt ord o ltr None None l in
  text true (l1 ++ l2) = text true l1 ++ lit " " ++ text true l2 /\
  text false (l1 ++ l2) = text false l2 ++ lit " " ++ text false l1.
Proof.
  intros lim flt ord o l1 l2 Hol H1 H2 text. unfold text. rewrite !no_limit. unfold displayed.
  assert (M : forall l : list cmd, l <> [] -> List.map (command_to_str lim flt ord o) l <> []) by (intros [|c l] H; [easy|discriminate]).
  assert (R : forall l : list cmd, l <> [] -> rev l <> []) by (intros l H E; apply H; rewrite <- (rev_involutive l), E; reflexivity).
  rewrite rev_app_distr, !map_app. unfold wrapped, separator. destruct o; try easy; (split; rewrite join_app by auto; reflexivity).
Qed.
(** a limit of at least 1: everything is printed when it fits; otherwise one
    command less than the limit, from the left of the display, and the number of
    the elided ones *)
Theorem C59_limit : forall lim flt ord o ltr target l (k : nat), 1 <= k ->
  let d := displayed ltr target l in
  let text := pattern_to_str lim flt ord o ltr (Some (Z.of_nat k)) target l in
  (List.length d <= k -> text = pattern_to_str lim flt ord o ltr None target l) /\
  (k < List.length d -> exists shown elided, d = shown ++ elided /\ List.length shown = k - 1 /\
     text = pattern_to_str lim flt ord o true None None shown ++ lit "...(" ++ dec (List.length elided) ++ lit " more commands)").
Proof.
  intros lim flt ord o ltr target l k Hk d text. unfold text. rewrite with_limit, no_limit. fold d. cbv zeta. split; intros H.
  - destruct (Z.ltb_spec (Z.of_nat k) (Z.of_nat (List.length d))); [lia|reflexivity].
  - destruct (Z.ltb_spec (Z.of_nat k) (Z.of_nat (List.length d))); [|lia].
    exists (firstn (k - 1) d), (skipn (k - 1) d). split; [now rewrite firstn_skipn|].
    split; [rewrite firstn_length; lia|].
    assert (P : pslice d (Z.of_nat k - 1) = firstn (k - 1) d).
    { unfold pslice. destruct (Z.ltb_spec (Z.of_nat k - 1) 0); [lia|]. f_equal. lia. }
    rewrite P, no_limit. cbn [displayed]. f_equal. f_equal. f_equal. f_equal. rewrite skipn_length. lia.
Qed.

(** ** Angles *)
(** the same text: the same fraction of pi with denominator at most 1000, which
    both angles meet with relative accuracy 1e-9, or the same float text *)
Definition near (a f : R) : Prop := (Rabs (a - f) <= / 1000000000 * Rmax (Rabs a) (Rabs f))%R.
Lemma pclose_near a f : pclose (/ 1000000000) 0 a f = true -> near a f.
Proof.
  unfold pclose, near. intros H. apply orb_prop in H.
  assert (A : forall x y, Rleb x y = true -> (x <= y)%R) by (intros x y E; unfold Rleb in E; destruct (Rle_dec x y); [auto|discriminate]).
  pose proof (Rmax_l (Rabs a) (Rabs f)). pose proof (Rmax_r (Rabs a) (Rabs f)). pose proof (Rabs_pos a).
  assert (B : forall x, Rabs (/ 1000000000 * x) = (/ 1000000000 * Rabs x)%R) by (intros x; rewrite Rabs_mult; f_equal; apply Rabs_pos_eq; lra).
  destruct H as [H|H]; [apply orb_prop in H; destruct H as [H|H]|]; apply A in H; rewrite ?B, ?Rabs_R0 in H; lra.
Qed.
Theorem C59_angle : forall lim flt o, lim_ok lim -> flt_ok flt -> forall a b, angle_to_str lim flt o a = angle_to_str lim flt o b ->
  (exists p q, Z.gcd p (Zpos q) = 1%Z /\ (Pos.to_nat q <= 1000)%nat /\ near a (fval (p, q)) /\ near b (fval (p, q))) \/
  flt (a * PI)%R = flt (b * PI)%R.
Proof.
  intros lim flt o HL HF a b H. apply (ang_inj lim flt HF o) in H. destruct H as [(Ha & Hb & E)|(_ & _ & E)]; [left|now right].
  destruct (HL 1000%nat a) as (G & D & _); [lia|]. unfold recognized in Ha, Hb. rewrite <- E in Hb.
  exists (fst (lim 1000 a)), (snd (lim 1000 a)). rewrite <- surjective_pairing. apply pclose_near in Ha, Hb. auto.
Qed.
Lemma pclose_refl x : pclose (/ 1000000000) 0 x x = true.
Proof.
  unfold pclose, Rleb. replace (x - x)%R with 0%R by ring. rewrite Rabs_R0.
  destruct (Rle_dec 0 (Rabs (/ 1000000000 * x))) as [H|H]; [reflexivity|]. exfalso. apply H, Rabs_pos.
Qed.
Lemma lowest_unique p q p' q' : Z.gcd p (Zpos q) = 1%Z -> Z.gcd p' (Zpos q') = 1%Z -> fval (p, q) = fval (p', q') -> p = p' /\ q = q'.
Proof.
  unfold fval. cbn [fst snd]. intros G G' E.
  assert (X : (p * Zpos q' = p' * Zpos q)%Z).
  { apply eq_IZR. rewrite !mult_IZR. pose proof (den_pos q). pose proof (den_pos q'). apply (f_equal (fun x => x * IZR (Zpos q) * IZR (Zpos q'))%R) in E.
    replace (IZR p / IZR (Z.pos q) * IZR (Z.pos q) * IZR (Z.pos q'))%R with (IZR p * IZR (Zpos q'))%R in E by (field; lra).
    replace (IZR p' / IZR (Z.pos q') * IZR (Z.pos q) * IZR (Z.pos q'))%R with (IZR p' * IZR (Zpos q))%R in E by (field; lra). exact E. }
  assert (D1 : (Zpos q | Zpos q')%Z).
  { apply Gauss with p; [exists p'; lia|]. apply Zgcd_1_rel_prime. now rewrite Z.gcd_comm. }
  assert (D2 : (Zpos q' | Zpos q)%Z).
  { apply Gauss with p'; [exists p; lia|]. apply Zgcd_1_rel_prime. now rewrite Z.gcd_comm. }
  assert (Q : Zpos q = Zpos q') by (apply Z.divide_antisym_nonneg; try lia; auto).
  injection Q as ->. split; auto. apply Z.mul_reg_r with (Zpos q'); lia.
Qed.
(** an angle p/q (in units of pi) in lowest terms with q <= 1000 is printed as the
    fraction: 0, pi, -pi, 3pi, pi/2, -3pi/4, ... *)
Definition fraction_text (o : fmt) (p : Z) (q : positive) : str :=
  let pi := match o with FLatex => lit "\pi" | FUnicode => [960%N] | FAscii => lit "pi" end in
  let minus := if (p <? 0)%Z then lit "-" else [] in
  let num := if (Z.abs p =? 1)%Z then pi else dec (Z.abs_nat p) ++ pi in
  if (p =? 0)%Z then lit "0"
  else if (q =? 1)%positive then minus ++ num
  else minus ++ match o with FLatex => lit "\frac{" ++ num ++ lit "}{" ++ dec (Pos.to_nat q) ++ lit "}" | _ => num ++ lit "/" ++ dec (Pos.to_nat q) end.
Theorem C59_fraction : forall lim flt o, lim_ok lim -> forall p q, Z.gcd p (Zpos q) = 1%Z -> (Pos.to_nat q <= 1000)%nat ->
  angle_to_str lim flt o (fval (p, q)) = fraction_text o p q.
Proof.
  intros lim flt o HL p q G D. rewrite ang_eq. unfold recognized.
  pose proof (lim_exact lim 1000 (fval (p, q)) (p, q) HL D eq_refl) as E.
  destruct (HL 1000%nat (fval (p, q))) as (G' & _ & _); [lia|]. rewrite E, pclose_refl.
  destruct (lim 1000 (fval (p, q))) as [p' q'] eqn:EL. cbn [fst snd] in *. apply lowest_unique in E; auto. destruct E as [-> ->]. clear EL G'.
  unfold fractxt, fraction_text, sgtxt, nntxt, pitxt.
  assert (N1 : (Z.abs p =? 1)%Z = (Z.abs_nat p =? 1)) by (destruct (Z.eqb_spec (Z.abs p) 1), (Nat.eqb_spec (Z.abs_nat p) 1); auto; lia).
  rewrite N1. destruct (Z.eqb_spec p 0) as [->|Hp].
  - cbn in G. injection G as ->. reflexivity.
  - rewrite andb_false_r. destruct (q =? 1)%positive; destruct (Z.abs_nat p =? 1); destruct o; reflexivity.
Qed.

(** ** Flows and corrections *)
(** the text of a flow (of a class with a given prefix letter) determines the
    correction function, in order, and the layers; the text of an XZ-corrections
    object determines both mappings and the layers; on one line or several *)
Theorem C59_flow : forall ord o, ord_ok ord -> forall k, In k [lit "p"; lit "g"; lit "c"] -> forall cf layers cf' layers' multiline,
  flow_to_str ord o cf k layers multiline = flow_to_str ord o cf' k layers' multiline -> cf = cf' /\ layers = layers'.
Proof.
  intros ord o Ho k Hk cf l cf' l' ml H. destruct Hk as [<-|[<-|[<-|[]]]]; eapply flow_inj in H; eauto.
Qed.
Theorem C59_xzcorr : forall ord o, ord_ok ord -> forall x z layers x' z' layers' multiline,
  xzcorr_to_str ord o x z layers multiline = xzcorr_to_str ord o x' z' layers' multiline -> x = x' /\ z = z' /\ layers = layers'.
Proof. intros ord o Ho x z l x' z' l' ml H. now apply xz_inj in H. Qed.
(** the last layers (measured first) are printed on the left *)
Theorem C59_layers : forall ord o a b, a <> [] -> b <> [] ->
  partial_order_to_str ord o (a ++ b) =
  partial_order_to_str ord o b ++ match o with FAscii => lit " < " | FUnicode => [32; 8826; 32]%N | FLatex => lit " \prec " end ++ partial_order_to_str ord o a.
Proof.
  intros ord o a b Ha Hb. unfold partial_order_to_str. rewrite rev_app_distr, map_app. apply join_app.
  - intros E. apply map_eq_nil in E. apply Hb. now rewrite <- (rev_involutive b), E.
  - intros E. apply map_eq_nil in E. apply Ha. now rewrite <- (rev_involutive a), E.
Qed.

(** ** What the documentation says and the text does not show *)
(** "only first limit commands are printed": one less is printed, right to left
    they are the last ones, and a limit of 0 prints commands and counts too many *)
Theorem C59_limit_refuted : forall lim flt,
  let l := [CN 0 SPlus; CN 1 SPlus; CN 2 SPlus] in
  let text ltr k := pattern_to_str lim flt elems FAscii ltr (Some k) None l in
  text true 2%Z = lit "N(0)...(2 more commands)" /\ text false 2%Z = lit "N(2)...(2 more commands)" /\
  text true 1%Z = lit "...(3 more commands)" /\ text true 0%Z = lit "N(0) N(1)...(4 more commands)".
Proof. intros. repeat split; reflexivity. Qed.
(** different commands with the same text: 8 of the 24 gates have one label *)
Theorem C59_label_refuted : forall lim flt ord o n, exists k k',
  ~ clifford_mat k ~= clifford_mat k' /\ command_to_str lim flt ord o (CC n k) = command_to_str lim flt ord o (CC n k').
Proof.
  intros. exists K16, K17. split; [intros H; apply C07_distinct in H; discriminate|]. reflexivity.
Qed.

(** ** Instances *)
Definition flt0 (r : R) : str := lit "0.5".
Example flt0_ok : flt_ok flt0. Proof. intros r. split; reflexivity. Qed.
Example elems_ok : ord_ok elems. Proof. intros n s. apply elems_spec. Qed.
Definition pat0 : list cmd :=
  [CN 1 SPlus; CE 0 1; CM 0 (MPauli AY Minus) sempty sempty; CM 12 (MPauli AX Plus) (of_list [0; 3]) (of_list [10]); CX 1 (of_list [0; 12]); CZ 2 sempty; CC 1 K6; CT].
Example pat0_ascii lim : pattern_to_str lim flt0 elems FAscii true (Some 40%Z) None pat0 =
  lit "N(1) E(0,1) M(0,-Y) {10}[M(12)]{0,3} X(1,{0,12}) Z(2) C(1,H) T".
Proof. reflexivity. Qed.
Example pat0_latex lim : pattern_to_str lim flt0 elems FLatex false (Some 40%Z) (Some (fun c => match c with CM _ _ _ _ | CX _ _ | CE _ _ => true | _ => false end)) pat0 =
  lit "\(X_{1}^{0,12}\,{}_{10}[M_{12}]^{0,3}\,M_{0}^{-Y}\,E_{0,1}\)".
Proof. reflexivity. Qed.
Example pat0_unicode lim : pattern_to_str lim flt0 elems FUnicode true None (Some (fun c => match c with CM _ _ _ _ | CX _ _ | CE _ _ => true | _ => false end)) pat0 =
  lit "E" ++ [8320; 8331; 8321; 32]%N ++ lit "M" ++ [8320]%N ++ lit "(-Y) " ++ [8321; 8320]%N ++ lit "[M" ++ [8321; 8322]%N ++ lit "]" ++ [8304; 8314; 179]%N
  ++ lit " X" ++ [8321; 8304; 8314; 185; 178]%N.
Proof. reflexivity. Qed.
Example flow0 : flow_to_str elems FAscii [(0, of_list [1; 2]); (1, of_list [2])] (lit "g") [of_list [2]; of_list [1]; of_list [0]] false
  = lit "g(0) = {1, 2}, g(1) = {2}; {0} < {1} < {2}".
Proof. reflexivity. Qed.
Example frac0 : fraction_text FAscii (-3) 4 = lit "-3pi/4" /\ fraction_text FLatex 1 2 = lit "\frac{\pi}{2}" /\ fraction_text FAscii 2 1 = lit "2pi".
Proof. repeat split; reflexivity. Qed.
Print Assumptions C59_command.
Print Assumptions C59_pattern.
Print Assumptions C59_direction.
Print Assumptions C59_limit.
Print Assumptions C59_angle.
Print Assumptions C59_fraction.
Print Assumptions C59_flow.
Print Assumptions C59_xzcorr.
Print Assumptions C59_layers.
Print Assumptions C59_limit_refuted.
Print Assumptions C59_label_refuted.
