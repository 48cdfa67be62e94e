(** Model of the number and state rendering of graphix/pretty_print.py.  A
    string is a list of tokens: the digits of an integer, a printed float, and
    the literal pieces of the format strings are one token each; a LaTeX
    command with braces, e^(...) and (...) carry their contents. *)
From Coq Require Import Reals Lra ZArith Arith List Bool Lia.
From Verif Require Import Cplx NSet Pattern Statevec Density Circuit Swaps NodeIndex Simulator DMSim Inspect.
Import ListNotations.
Local Open Scope C_scope.

(** pretty_print.py:34-39 OutputFormat *)
Inductive fmt := FAscii | FLatex | FUnicode.
Definition is_latex (o : fmt) : bool := match o with FLatex => true | _ => false end.
Inductive tok :=
| TNum (n : nat)                 (** str(n) *)
| TDec (r : R)                   (** a printed float (with its minus sign) that shows r *)
| TSig (r : R)                   (** a float printed with an explicit sign, "{:+g}" *)
| TSqrt (n : nat)                (** \sqrt{n}, sqrt(n) with the Unicode sign, sqrt(n) *)
| TI | TPi                       (** the imaginary unit, pi *)
| TMinus | TSlash                (** "-", "/" *)
| TMul                           (** "*", a centred dot, or the space between LaTeX factors *)
| TPlusS | TMinusS               (** " + ", " - " *)
| TFrac (a b : list tok)         (** \frac{a}{b} *)
| TExp (a : list tok)            (** e^(a), \mathrm{e}^{a} *)
| TPar (a : list tok)            (** (a) *)
| TKet (k : list bool).          (** |k> *)

Definition Rltb (a b : R) : bool := if Rlt_dec a b then true else false.
Definition Reqb (a b : R) : bool := if Req_EM_T a b then true else false.
(** math.isclose(a, b, rel_tol, abs_tol) for non-negative tolerances *)
Definition pclose (rtol atol a b : R) : bool :=
  let d := Rabs (a - b) in Rleb d (Rabs (rtol * b)) || Rleb d (Rabs (rtol * a)) || Rleb d atol.
(** fractions.Fraction, in lowest terms *)
Definition frac := (Z * positive)%type.
Definition fval (q : frac) : R := (IZR (fst q) / IZR (Zpos (snd q)))%R.

(** pretty_print.py:512-536 _squarefree_decomposition; the loops have fuel *)
Fixpoint sqf_inner (fuel d outer inner : nat) : res (nat * nat) :=
  match fuel with
  | O => Err EFuel
  | S k => if (inner mod (d * d) =? 0)%nat then sqf_inner k d (outer * d) (inner / (d * d)) else Ok (outer, inner)
  end.
Fixpoint sqf_outer (fuel d outer inner : nat) : res (nat * nat) :=
  match fuel with
  | O => Err EFuel
  | S k => if (d * d <=? inner)%nat then do (o, i) <- sqf_inner (S inner) d outer inner; sqf_outer k (S d) o i else Ok (outer, inner)
  end.
Definition squarefree (n : nat) : res (nat * nat) := if (n =? 0)%nat then Ok (0, 1)%nat else sqf_outer (S n) 2 1 n.

Section Render.
(** [lim m x] is Fraction(x).limit_denominator(m); [fmtg p x] is the number
    shown by f"{x:.{p}g}" *)
Variable lim : nat -> R -> frac.
Variable fmtg : nat -> R -> R.
Variable out : fmt.
Variable maxden : nat.
Variables atol rtol : R.
Variable prec : nat.

(** pretty_print.py:539-590 _recognize_sqrt: x = num * sqrt(inner) / den *)
Definition recognize_sqrt (x : R) : res (option (Z * nat * nat)) :=
  let direct := lim maxden x in
  if pclose rtol atol x (fval direct) then
    Ok (Some ((if (fst direct <? 0)%Z then - Z.abs (fst direct) else Z.abs (fst direct))%Z, 1%nat, Pos.to_nat (snd direct)))
  else
    let square := lim maxden (x * x)%R in
    if negb (pclose rtol atol (x * x)%R (fval square)) then Ok None
    else
      do (no, ni) <- squarefree (Z.to_nat (fst square));
      do (d_o, di) <- squarefree (Pos.to_nat (snd square));
      do (co, inner) <- squarefree (ni * di);
      let num := (no * co)%nat in let den := (d_o * di)%nat in
      let g := Nat.gcd num den in
      Ok (Some ((if Rltb x 0 then - Z.of_nat (num / g) else Z.of_nat (num / g))%Z, inner, (den / g)%nat)).
(** pretty_print.py:596-604 _sqrt_str, 607-610 _fraction_str *)
Definition sqrt_str (inner : nat) : list tok := if (inner =? 1)%nat then [] else [TSqrt inner].
Definition fraction_str (num den : list tok) : list tok := if is_latex out then [TFrac num den] else num ++ [TSlash] ++ den.
Definition sign_str (s : Z) : list tok := if (s <? 0)%Z then [TMinus] else [].
(** pretty_print.py:613-628 _render_real *)
Definition render_real (r : Z * nat * nat) : list tok :=
  let '(s, inner, den) := r in
  if (s =? 0)%Z then [TNum 0] else
  let m := Z.abs_nat s in
  let numerator := if (inner =? 1)%nat then [TNum m] else if (m =? 1)%nat then sqrt_str inner else TNum m :: sqrt_str inner in
  sign_str s ++ (if (den =? 1)%nat then numerator else fraction_str numerator [TNum den]).
(** pretty_print.py:631-635 _real_to_str *)
Definition real_to_str (x : R) : res (option (list tok)) :=
  do r <- recognize_sqrt x; Ok (option_map render_real r).
(** pretty_print.py:638-652 _render_imaginary *)
Definition render_imaginary (r : Z * nat * nat) : list tok :=
  let '(s, inner, den) := r in
  let m := Z.abs_nat s in
  let numerator := (if (m =? 1)%nat then [] else [TNum m]) ++ [TI] ++ sqrt_str inner in
  sign_str s ++ (if (den =? 1)%nat then numerator else fraction_str numerator [TNum den]).
(** pretty_print.py:655-660 _imaginary_to_str *)
Definition imaginary_to_str (x : R) : res (option (list tok)) :=
  do r <- recognize_sqrt x; Ok (option_map render_imaginary r).
(** math.atan2 *)
Definition atan2 (z : C) : R :=
  let t := acos (re z / Cmod z) in if Rltb (im z) 0 then (- t)%R else t.
(** pretty_print.py:663-669 _recognize_angle_over_pi *)
Definition recognize_angle (theta : R) : option frac :=
  let v := (theta / PI)%R in let f := lim maxden v in if pclose rtol atol v (fval f) then Some f else None.
(** pretty_print.py:77-149 angle_to_str(angle, output) for a non-negative angle *)
Definition angle_str (angle : R) : list tok :=
  let '(num, den) := lim 1000 angle in
  if negb (pclose (/ 1000000000) 0 angle (fval (num, den))) then [TDec (angle * PI)]
  else
    let sign := if (num <? 0)%Z then [TMinus] else [] in
    let n := Z.abs_nat num in
    if (den =? 1)%positive then
      if (n =? 0)%nat then [TNum 0] else if (n =? 1)%nat then sign ++ [TPi] else sign ++ [TNum n; TPi]
    else sign ++ fraction_str (if (n =? 1)%nat then [TPi] else [TNum n; TPi]) [TNum (Pos.to_nat den)].
(** the string is "1", resp. "-1" *)
Definition is_one (s : list tok) : bool :=
  match s with [TNum n] => (n =? 1)%nat | [TDec r] => Reqb r 1 | _ => false end.
Definition is_mone (s : list tok) : bool :=
  match s with [TMinus; TNum n] => (n =? 1)%nat | [TDec r] => Reqb r (-1) | _ => false end.
(** pretty_print.py:672-691 _exponential_to_str *)
Definition exponential_to_str (z : C) : res (option (list tok)) :=
  match recognize_angle (atan2 z) with
  | None => Ok None
  | Some f =>
    if (fst f =? 0)%Z then Ok None else
    do radius <- real_to_str (Cmod z);
    match radius with
    | None => Ok None
    | Some rs =>
      let sep := match out with FUnicode => [] | _ => [TMul] end in
      let exponent := sign_str (fst f) ++ [TI] ++ sep ++ angle_str (Rabs (fval f)) in
      let body := [TExp exponent] in
      Ok (Some (if is_one rs then body else rs ++ [TMul] ++ body))
    end
  end.
(** pretty_print.py:694-709 _cartesian_to_str *)
Definition cartesian_to_str (x y : R) : res (option (list tok)) :=
  do rs <- real_to_str x;
  do ir <- recognize_sqrt y;
  match rs, ir with
  | Some rs, Some (s, inner, den) =>
      let connector := if (s <? 0)%Z then TMinusS else TPlusS in
      let imag := if (Z.abs s =? 1)%Z && (inner =? 1)%nat && (den =? 1)%nat then [TI] else render_real (Z.abs s, inner, den) ++ [TI] in
      Ok (Some (rs ++ [connector] ++ imag))
  | _, _ => Ok None
  end.
(** pretty_print.py:712-719 _decimal_to_str *)
Definition decimal_to_str (z : C) : list tok :=
  if Rleb (Rabs (im z)) atol then [TDec (fmtg prec (re z))]
  else if Rleb (Rabs (re z)) atol then [TDec (fmtg prec (im z)); TI]
  else [TDec (fmtg prec (re z)); TSig (fmtg prec (im z)); TI].
Definition or_decimal (s : option (list tok)) (z : C) : list tok := match s with Some s => s | None => decimal_to_str z end.
(** pretty_print.py:722-799 complex_to_str of a number *)
Definition complex_to_str (z : C) : res (list tok) :=
  let small x := Rleb (Rabs x) atol in
  if small (re z) && small (im z) then Ok [TNum 0]
  else if small (im z) then do s <- real_to_str (re z); Ok (or_decimal s z)
  else if small (re z) then do s <- imaginary_to_str (im z); Ok (or_decimal s z)
  else
    do e <- exponential_to_str z;
    match e with
    | Some e' => if pclose rtol atol (Cmod z) 1 then Ok e'
                 else do c <- cartesian_to_str (re z) (im z); Ok match c with Some c => c | None => e' end
    | None => do c <- cartesian_to_str (re z) (im z); Ok (or_decimal c z)
    end.

(** pretty_print.py:810-812 _needs_parentheses *)
Definition needs_parentheses (s : list tok) : bool := existsb (fun t => match t with TPlusS | TMinusS => true | _ => false end) s.
(** str.startswith("-") and s[1:] *)
Definition starts_minus (s : list tok) : bool :=
  match s with TMinus :: _ => true | TDec r :: _ => Rltb r 0 | _ => false end.
Definition tail1 (s : list tok) : list tok :=
  match s with TMinus :: l => l | TDec r :: l => TDec (- r) :: l | _ => s end.
(** the loop body that appends a term (pretty_print.py:863-868 and 940-945);
    [None] before the first one *)
Definition add_term (result : option (list tok)) (term : list tok) : option (list tok) :=
  Some match result with
       | None => term
       | Some r => if starts_minus term then r ++ [TMinusS] ++ tail1 term else r ++ [TPlusS] ++ term
       end.
Definition join_terms (terms : list (list tok)) : list tok := match fold_left add_term terms None with Some s => s | None => [] end.
Definition opt_app (c : list tok) (k : list bool) : list tok :=
  if is_one c then [TKet k] else if is_mone c then [TMinus; TKet k] else c ++ [TKet k].
(** pretty_print.py:815-869 _factor_uniform_magnitude (numerical amplitudes) *)
Definition factor_uniform (amps : list (list bool * C)) : res (option (list tok)) :=
  match amps with
  | [] | [_] => Ok None
  | (_, a0) :: _ =>
    let radius := Cmod a0 in
    if Reqb radius 0 || existsb (fun p => negb (pclose rtol atol (Cmod (snd p)) radius)) amps then Ok None else
    do rs <- complex_to_str (RtoC radius);
    if is_one rs then Ok None else
    do terms <- Swaps.rmap (fun p => do ph <- complex_to_str (snd p * RtoC (/ radius)); Ok (opt_app ph (fst p))) amps;
    Ok (Some (rs ++ [TPar (join_terms terms)]))
  end.
(** pretty_print.py:879-947 statevec_to_str *)
Definition state_to_str (amps : list (list bool * C)) : res (list tok) :=
  match amps with
  | [] => Ok [TNum 0]
  | _ =>
    do f <- factor_uniform amps;
    match f with
    | Some s => Ok s
    | None =>
      do terms <- Swaps.rmap (fun p => do c <- complex_to_str (snd p);
                   Ok (if is_one c then [TKet (fst p)] else if is_mone c then [TMinus; TKet (fst p)]
                       else if needs_parentheses c then [TPar c; TKet (fst p)] else c ++ [TKet (fst p)])) amps;
      Ok (join_terms terms)
    end
  end.
Definition statevec_to_str (s : sv) (lsb : bool) : res (list tok) := state_to_str (to_dict s lsb rtol atol).
End Render.
