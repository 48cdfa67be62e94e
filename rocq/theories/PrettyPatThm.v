(** Reading back the strings of PrettyPat.v. *)
From Coq Require Import String Ascii Reals ZArith NArith Arith List Bool Lia.
From Verif Require Import Cplx NSet Fundamentals CliffordDb Clifford Measure Pattern Pretty PrettyPat.
Import ListNotations.
Local Open Scope nat_scope.

(** ** Cutting a string *)
Definition hd_no (P : N -> bool) (r : str) : bool := match r with [] => true | c :: _ => negb (P c) end.

Lemma span_inj P a a' r r' : forallb P a = true -> forallb P a' = true -> hd_no P r = true -> hd_no P r' = true ->
  a ++ r = a' ++ r' -> a = a' /\ r = r'.
Proof.
  revert a'. induction a as [|c a IH]; intros [|c' a'] Ha Ha' Hr Hr' H; cbn in *.
  - auto.
  - subst r. cbn in Hr. apply andb_prop in Ha'. destruct Ha' as [Hc _]. rewrite Hc in Hr. discriminate.
  - subst r'. cbn in Hr'. apply andb_prop in Ha. destruct Ha as [Hc _]. rewrite Hc in Hr'. discriminate.
  - injection H as -> H. apply andb_prop in Ha, Ha'. destruct Ha as [_ Ha], Ha' as [_ Ha'].
    destruct (IH _ Ha Ha' Hr Hr' H) as [-> ->]. auto.
Qed.
(** a string without the characters of D *)
Definition no (D : list N) (c : N) : bool := negb (existsb (N.eqb c) D).
Lemma cut_inj D a a' d d' r r' : forallb (no D) a = true -> forallb (no D) a' = true -> no D d = false -> no D d' = false ->
  a ++ d :: r = a' ++ d' :: r' -> a = a' /\ d = d' /\ r = r'.
Proof.
  intros Ha Ha' Hd Hd' H. destruct (span_inj (no D) a a' (d :: r) (d' :: r')) as [-> E]; auto.
  - cbn. now rewrite Hd.
  - cbn. now rewrite Hd'.
  - injection E as -> ->. auto.
Qed.
Lemma cut_absurd D a d r b : forallb (no D) b = true -> no D d = false -> a ++ d :: r = b -> False.
Proof.
  intros Hb Hd <-. rewrite forallb_app in Hb. cbn in Hb. rewrite Hd in Hb. now rewrite andb_false_r in Hb.
Qed.
Lemma forallb_impl {A} (P Q : A -> bool) l : (forall x, P x = true -> Q x = true) -> forallb P l = true -> forallb Q l = true.
Proof. intros H. rewrite !forallb_forall. auto. Qed.

Lemma all_app (P : N -> bool) (a b : str) : forallb P a = true -> forallb P b = true -> forallb P (a ++ b) = true.
Proof. intros. rewrite forallb_app. now apply andb_true_intro. Qed.
Lemma cons_inv (x y : N) (a b : str) : x :: a = y :: b -> x = y /\ a = b.
Proof. intros H. now injection H. Qed.
(** ** Numbers *)
Lemma digits_lt k n d : In d (digits k n) -> d < 10.
Proof.
  revert n d. induction k; cbn [digits]; intros n d H; [easy|].
  destruct (n <? 10) eqn:E.
  - apply Nat.ltb_lt in E. destruct H as [<-|[]]. exact E.
  - apply in_app_or in H. destruct H as [H|[<-|[]]]; eauto. apply Nat.mod_upper_bound. lia.
Qed.
Definition dval (l : list nat) : nat := fold_left (fun a d => 10 * a + d) l 0.
Lemma digits_val k n : n < k -> dval (digits k n) = n.
Proof.
  revert n. induction k; intros n H; [lia|]. cbn [digits].
  destruct (n <? 10) eqn:E.
  - cbn. lia.
  - apply Nat.ltb_ge in E. unfold dval. rewrite fold_left_app. change (fold_left _ (digits k (n / 10)) 0) with (dval (digits k (n / 10))).
    assert (n / 10 < n) by (apply Nat.div_lt; lia).
    rewrite IHk by lia. cbn [fold_left]. pose proof (Nat.div_mod n 10). lia.
Qed.
Lemma digits_ne k n : digits (S k) n <> [].
Proof. cbn [digits]. destruct (n <? 10); [discriminate|]. intros H. apply app_eq_nil in H. easy. Qed.
Lemma dec_dig n : forallb isdig (dec n) = true.
Proof.
  unfold dec. rewrite forallb_forall. intros c H. apply in_map_iff in H. destruct H as (d & <- & H).
  apply digits_lt in H. unfold isdig. apply andb_true_intro. split; apply N.leb_le; lia.
Qed.
Lemma dec_ne n : dec n <> [].
Proof. unfold dec. intros H. apply map_eq_nil in H. now apply digits_ne in H. Qed.
Lemma map_inj_on {A B} (f : A -> B) (P : A -> Prop) l l' : (forall x y, P x -> P y -> f x = f y -> x = y) ->
  Forall P l -> Forall P l' -> List.map f l = List.map f l' -> l = l'.
Proof.
  intros Hf. revert l'. induction l; intros [|y l'] Hl Hl' H; try discriminate; auto.
  inversion_clear Hl. inversion_clear Hl'. injection H as Hh H. f_equal; auto.
Qed.
Lemma dec_inj n m : dec n = dec m -> n = m.
Proof.
  unfold dec. intros H.
  apply (map_inj_on _ (fun _ => True)) in H; [|intros; lia|apply Forall_forall; auto|apply Forall_forall; auto].
  rewrite <- (digits_val (S n) n), <- (digits_val (S m) m) by lia. now rewrite H.
Qed.
Lemma dec_no D n : forallb (fun c => negb (isdig c)) D = true -> forallb (no D) (dec n) = true.
Proof.
  intros HD. eapply forallb_impl; [|apply dec_dig]. intros c Hc. unfold no. apply negb_true_iff.
  destruct (existsb (N.eqb c) D) eqn:E; auto. apply existsb_exists in E. destruct E as (x & Hx & E).
  apply N.eqb_eq in E. subst x. rewrite forallb_forall in HD. specialize (HD _ Hx). now rewrite Hc in HD.
Qed.
(** sub- and superscript digits *)
Definition issub (c : N) : bool := ((8320 <=? c) && (c <=? 8329))%N.
Definition issup (c : N) : bool := ((c =? 185) || (c =? 178) || (c =? 179) || ((8304 <=? c) && (c <=? 8313)))%N.
Lemma isdig_cases c : isdig c = true -> In c [48; 49; 50; 51; 52; 53; 54; 55; 56; 57]%N.
Proof.
  unfold isdig. intros H. apply andb_prop in H. destruct H as [H1 H2]. apply N.leb_le in H1, H2. cbn. lia.
Qed.
Ltac digcases H := apply isdig_cases in H; cbn in H; repeat (destruct H as [<-|H]); try contradiction.
Lemma sub_inj x y : isdig x = true -> isdig y = true -> sub x = sub y -> x = y.
Proof. intros Hx Hy. unfold sub. rewrite Hx, Hy. unfold isdig in *. apply andb_prop in Hx, Hy. rewrite !N.leb_le in *. lia. Qed.
Lemma sup_inj x y : isdig x = true -> isdig y = true -> sup x = sup y -> x = y.
Proof. intros Hx Hy. digcases Hx; digcases Hy; vm_compute; congruence. Qed.
Lemma sub_dig c : isdig c = true -> issub (sub c) = true.
Proof. intros H. digcases H; reflexivity. Qed.
Lemma sup_dig c : isdig c = true -> issup (sup c) = true.
Proof. intros H. digcases H; reflexivity. Qed.
Definition decb n := List.map sub (dec n).
Definition dect n := List.map sup (dec n).
Lemma dec_Forall n : Forall (fun c => isdig c = true) (dec n).
Proof. apply Forall_forall, forallb_forall, dec_dig. Qed.
Lemma decb_inj n m : decb n = decb m -> n = m.
Proof. intros H. apply dec_inj. apply (map_inj_on sub (fun c => isdig c = true)); auto using dec_Forall, sub_inj. Qed.
Lemma dect_inj n m : dect n = dect m -> n = m.
Proof. intros H. apply dec_inj. apply (map_inj_on sup (fun c => isdig c = true)); auto using dec_Forall, sup_inj. Qed.
Lemma decb_sub n : forallb issub (decb n) = true.
Proof.
  unfold decb. rewrite forallb_forall. intros c H. apply in_map_iff in H. destruct H as (d & <- & H).
  apply sub_dig. pose proof (dec_dig n) as Hd. rewrite forallb_forall in Hd. auto.
Qed.
Lemma dect_sup n : forallb issup (dect n) = true.
Proof.
  unfold dect. rewrite forallb_forall. intros c H. apply in_map_iff in H. destruct H as (d & <- & H).
  apply sup_dig. pose proof (dec_dig n) as Hd. rewrite forallb_forall in Hd. auto.
Qed.
Lemma decb_ne n : decb n <> [].
Proof. intros H. apply map_eq_nil in H. now apply dec_ne in H. Qed.
Lemma dect_ne n : dect n <> [].
Proof. intros H. apply map_eq_nil in H. now apply dec_ne in H. Qed.

(** ** Lists *)
Lemma join_cons sep x y l : join sep (x :: y :: l) = x ++ sep ++ join sep (y :: l).
Proof. reflexivity. Qed.
Lemma join_inj d sep l l' : (forall x, In x l \/ In x l' -> forallb (no [d]) x = true /\ x <> []) ->
  join (d :: sep) l = join (d :: sep) l' -> l = l'.
Proof.
  assert (Hd : no [d] d = false) by (unfold no; cbn; now rewrite N.eqb_refl).
  revert l'. induction l as [|x l IH]; intros l' Hl H.
  - destruct l' as [|x' l']; auto. exfalso. destruct (Hl x') as [_ Hx]; [right; now left|].
    apply Hx. destruct l'; [now cbn in H|]. rewrite join_cons in H. cbn [join] in H. destruct x'; [easy|discriminate].
  - destruct l' as [|x' l'].
    + exfalso. destruct (Hl x) as [_ Hx]; [left; now left|]. apply Hx.
      destruct l; [now cbn in H|]. rewrite join_cons in H. cbn [join] in H. destruct x; [easy|discriminate].
    + destruct (Hl x) as [Fx _]; [left; now left|]. destruct (Hl x') as [Fx' _]; [right; now left|].
      destruct l as [|y l], l' as [|y' l'].
      * cbn in H. now subst.
      * exfalso. rewrite join_cons in H. cbn [join] in H. symmetry in H. cbn [app] in H. eapply cut_absurd; [exact Fx|exact Hd|exact H].
      * exfalso. rewrite join_cons in H. cbn [join] in H. cbn [app] in H. eapply cut_absurd; [exact Fx'|exact Hd|exact H].
      * rewrite !join_cons in H. cbn [app] in H. apply cut_inj with (D := [d]) in H; auto.
        destruct H as (-> & _ & H). apply app_inv_head in H. f_equal. apply IH; auto.
        intros z Hz. apply Hl. cbn in *. tauto.
Qed.
Lemma join_all P sep l : forallb P sep = true -> (forall x, In x l -> forallb P x = true) -> forallb P (join sep l) = true.
Proof.
  intros Hs. induction l as [|x l IH]; intros H; auto. destruct l; [cbn; apply H; now left|].
  rewrite join_cons, !forallb_app. apply andb_true_intro. split; [apply H; now left|].
  apply andb_true_intro. split; [exact Hs|]. apply IH. intros. apply H. now right.
Qed.
Lemma map_inj {A B} (f : A -> B) l l' : (forall x y, f x = f y -> x = y) -> List.map f l = List.map f l' -> l = l'.
Proof. intros Hf H. apply (map_inj_on f (fun _ => True)) in H; auto; apply Forall_forall; auto. Qed.
Lemma join_dec_inj d sep l l' : isdig d = false -> join (d :: sep) (List.map dec l) = join (d :: sep) (List.map dec l') -> l = l'.
Proof.
  intros Hd H. apply join_inj in H; [now apply map_inj in H; [|apply dec_inj]|].
  intros x Hx. rewrite !in_map_iff in Hx. destruct Hx as [(n & <- & _)|(n & <- & _)]; split; try apply dec_ne; apply dec_no; cbn; now rewrite Hd.
Qed.
(** the separator "\," of LaTeX: no backslash is last or followed by a comma *)
Fixpoint ok2 (s : str) : bool :=
  match s with
  | [] => true
  | c :: s' => (if (c =? 92)%N then match s' with [] => false | d :: _ => negb (d =? 44)%N end else true) && ok2 s'
  end.
Lemma ok2_app a b : ok2 a = true -> ok2 b = true -> ok2 (a ++ b) = true.
Proof.
  induction a as [|c a IH]; cbn; intros Ha Hb; auto. apply andb_prop in Ha. destruct Ha as [Hc Ha].
  rewrite IH by auto. rewrite andb_true_r. destruct (c =? 92)%N; auto. destruct a; [discriminate|]. exact Hc.
Qed.
Lemma ok2_no a : forallb (no [92%N]) a = true -> ok2 a = true.
Proof.
  induction a as [|c a IH]; cbn; intros H; auto. apply andb_prop in H. destruct H as [Hc H].
  unfold no in Hc. cbn in Hc. rewrite orb_false_r in Hc. apply negb_true_iff in Hc. rewrite Hc. cbn. auto.
Qed.
Lemma cut2_inj a a' r r' : ok2 a = true -> ok2 a' = true -> a ++ 92%N :: 44%N :: r = a' ++ 92%N :: 44%N :: r' -> a = a' /\ r = r'.
Proof.
  revert a'. induction a as [|c a IH]; intros [|c' a'] Ha Ha' H; cbn in *.
  - now injection H.
  - exfalso. injection H as <- H. cbn in Ha'. destruct a' as [|d a']; [discriminate|]. injection H as <- _. discriminate.
  - exfalso. injection H as -> H. cbn in Ha. destruct a as [|d a]; [discriminate|]. injection H as -> _. discriminate.
  - injection H as -> H. apply andb_prop in Ha, Ha'. destruct (IH a') as [-> ->]; tauto.
Qed.
Lemma cut2_absurd a r : ok2 (a ++ 92%N :: 44%N :: r) = true -> False.
Proof.
  induction a as [|c a IH]; cbn; intros H; [discriminate|]. apply andb_prop in H. tauto.
Qed.
Lemma join2_inj l l' : (forall x, In x l \/ In x l' -> ok2 x = true /\ x <> []) ->
  join [92; 44]%N l = join [92; 44]%N l' -> l = l'.
Proof.
  revert l'. induction l as [|x l IH]; intros l' Hl H.
  - destruct l' as [|x' l']; auto. exfalso. destruct (Hl x') as [_ Hx]; [right; now left|].
    apply Hx. destruct l'; [now cbn in H|]. rewrite join_cons in H. cbn [join] in H. destruct x'; [easy|discriminate].
  - destruct l' as [|x' l'].
    + exfalso. destruct (Hl x) as [_ Hx]; [left; now left|]. apply Hx.
      destruct l; [now cbn in H|]. rewrite join_cons in H. cbn [join] in H. destruct x; [easy|discriminate].
    + destruct (Hl x) as [Fx _]; [left; now left|]. destruct (Hl x') as [Fx' _]; [right; now left|].
      destruct l as [|y l], l' as [|y' l'].
      * cbn in H. now subst.
      * exfalso. rewrite join_cons in H. cbn [join] in H. cbn [app] in H. rewrite H in Fx. now apply cut2_absurd in Fx.
      * exfalso. rewrite join_cons in H. cbn [join] in H. cbn [app] in H. rewrite <- H in Fx'. now apply cut2_absurd in Fx'.
      * rewrite !join_cons in H. cbn [app] in H. apply cut2_inj in H; auto.
        destruct H as (-> & H). f_equal. apply IH; auto.
        intros z Hz. apply Hl. cbn in *. tauto.
Qed.
