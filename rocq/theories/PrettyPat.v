(** Model of the pattern, flow and correction rendering of
    graphix/pretty_print.py, character by character: a string is the list of
    its Unicode code points. *)
From Coq Require Import String Ascii Reals ZArith Arith List Bool Lia.
From Verif Require Import Cplx NSet Fundamentals CliffordDb Clifford Measure Pattern Pretty.
Import ListNotations.
Local Open Scope nat_scope.

Definition str := list N.
(** an ASCII literal *)
Definition lit (s : string) : str := List.map N_of_ascii (list_ascii_of_string s).
Arguments lit s%string.
(** str(n) of a Python int *)
Fixpoint digits (fuel n : nat) : list nat :=
  match fuel with O => [] | S k => if n <? 10 then [n] else digits k (n / 10) ++ [n mod 10] end.
Definition dec (n : nat) : str := List.map (fun d => 48 + N.of_nat d)%N (digits (S n) n).
(** sep.join(l) *)
Fixpoint join (sep : str) (l : list str) : str :=
  match l with [] => [] | [x] => x | x :: l' => x ++ sep ++ join sep l' end.
Definition isdig (c : N) : bool := ((48 <=? c) && (c <=? 57))%N.
(** pretty_print.py:157-158 SUBSCRIPTS, SUPERSCRIPTS with str.translate *)
Definition sub (c : N) : N := if isdig c then (c - 48 + 8320)%N else c.
Definition sup (c : N) : N :=
  if isdig c then (if c =? 49 then 185 else if c =? 50 then 178 else if c =? 51 then 179 else c - 48 + 8304)%N else c.

(** _db.py:69-95 CLIFFORD_LABEL, clifford.py:114-116 Clifford.__str__ *)
Definition clifford_label (c : clifford) : str :=
  nth (clifford_val c)
    [lit "I"; lit "X"; lit "Y"; lit "Z"; lit "S"; lit "Sdagger"; lit "H"; lit "\sqrt{iX}"; lit "\sqrt{iY}"; lit "\sqrt{I}";
     lit "\sqrt{-I}"; lit "\sqrt{I}"; lit "\sqrt{-iY}"; lit "\sqrt{-I}"; lit "\sqrt{-I}"; lit "\sqrt{-iX}"; lit "I^{1/3}"; lit "I^{1/3}";
     lit "I^{1/3}"; lit "I^{1/3}"; lit "I^{1/3}"; lit "I^{1/3}"; lit "I^{1/3}"; lit "I^{1/3}"; lit "I^{1/3}"] [].
(** measurements.py:370-384 PauliMeasurement.__str__ *)
Definition sign_char (s : sign) : str := match s with Plus => lit "+" | Minus => lit "-" end.
Definition axis_name (a : axis) : str := match a with AX => lit "X" | AY => lit "Y" | AZ => lit "Z" end.

Section Print.
(** [lim m x] is Fraction(x).limit_denominator(m); [flt r] is the text of the
    float r; [ord s] lists a Python set in its iteration order *)
Variable lim : nat -> R -> frac.
Variable flt : R -> str.
Variable ord : nset -> list nat.
Variable out : fmt.

(** pretty_print.py:77-149 angle_to_str(angle, output) *)
Definition angle_to_str (angle : R) : str :=
  let '(num, den) := lim 1000 angle in
  if negb (pclose (/ 1000000000) 0 angle (fval (num, den))) then flt (angle * PI)%R
  else
    let sign := if (num <? 0)%Z then lit "-" else [] in
    let n := Z.abs_nat num in
    let pi := match out with FLatex => lit "\pi" | FUnicode => [960%N] | FAscii => lit "pi" end in
    let mkfrac a b := match out with FLatex => lit "\frac{" ++ a ++ lit "}{" ++ b ++ lit "}" | _ => a ++ lit "/" ++ b end in
    if (den =? 1)%positive then
      match n with 0 => lit "0" | 1 => sign ++ pi | _ => sign ++ dec n ++ pi end
    else sign ++ mkfrac (if (n =? 1)%nat then pi else dec n ++ pi) (dec (Pos.to_nat den)).

(** pretty_print.py:210-232: the arguments of an M command (numeric angles) *)
Definition msr_args (m : measurement) : list str :=
  match m with
  | MBloch a p => (match p with PXY => [] | PYZ => [lit "YZ"] | PXZ => [lit "XZ"] end) ++ [angle_to_str a]
  | MPauli AX Plus => []
  | MPauli ax s => [sign_char s ++ axis_name ax]
  end.
(** pretty_print.py:240-255: the node with its arguments, and, for ASCII, the domain *)
Definition node_str (name : str) (n : nat) (args : list str) (dom : list nat) : str :=
  match out with
  | FLatex => name ++ lit "_{" ++ dec n ++ lit "}" ++
      (match args with [] => [] | _ => lit "^{" ++ join (lit ",") args ++ lit "}" end)
  | FUnicode => name ++ List.map sub (dec n) ++
      (match args with [] => [] | _ => lit "(" ++ join (lit ",") args ++ lit ")" end)
  | FAscii => name ++ lit "(" ++ join (lit ",") (dec n :: args ++
      (match dom with [] => [] | _ => [lit "{" ++ join (lit ",") (List.map dec dom) ++ lit "}"] end)) ++ lit ")"
  end.
(** pretty_print.py:256-267: the t-domain before a measurement *)
Definition t_str (d : list nat) : str :=
  match out with
  | FLatex => lit "{}_{" ++ join (lit ",") (List.map dec d) ++ lit "}"
  | FUnicode => join [8330%N] (List.map (fun n => List.map sub (dec n)) d)
  | FAscii => lit "{" ++ join (lit ",") (List.map dec d) ++ lit "}"
  end.
(** pretty_print.py:269-278: a domain after a command *)
Definition s_str (d : list nat) : str :=
  match out with
  | FLatex => lit "^{" ++ join (lit ",") (List.map dec d) ++ lit "}"
  | FUnicode => join [8314%N] (List.map (fun n => List.map sup (dec n)) d)
  | FAscii => lit "{" ++ join (lit ",") (List.map dec d) ++ lit "}"
  end.
(** pretty_print.py:233-256, 268-278: X, Z and S commands; the ASCII format
    puts the domain among the arguments *)
Definition corr_str (name : str) (n : nat) (d : list nat) : str :=
  node_str name n [] d ++ match out, d with FAscii, _ => [] | _, [] => [] | _, _ => s_str d end.
(** pretty_print.py:180-279 command_to_str *)
Definition command_to_str (c : cmd) : str :=
  match c with
  | CE u v => lit "E" ++ match out with
      | FLatex => lit "_{" ++ dec u ++ lit "," ++ dec v ++ lit "}"
      | FUnicode => List.map sub (dec u) ++ [8331%N] ++ List.map sub (dec v)
      | FAscii => lit "(" ++ dec u ++ lit "," ++ dec v ++ lit ")" end
  | CT => lit "T"
  | CN n _ => node_str (lit "N") n [] []
  | CC n k => node_str (lit "C") n [clifford_label k] []
  | CX n d => corr_str (lit "X") n (ord d)
  | CZ n d => corr_str (lit "Z") n (ord d)
  | CS n d => corr_str (lit "S") n (ord d)
  | CM n m s t =>
      let body := node_str (lit "M") n (msr_args m) [] in
      match ord s, ord t with
      | [], [] => body
      | s, t => (match t with [] => [] | _ => t_str t end) ++ lit "[" ++ body ++ lit "]" ++
                (match s with [] => [] | _ => s_str s end)
      end
  end.

(** l[:k] for a Python int k *)
Definition pslice {A} (l : list A) (k : Z) : list A :=
  firstn (Z.to_nat (if (k <? 0)%Z then Z.of_nat (List.length l) + k else k)) l.
(** pretty_print.py:282-323 pattern_to_str(pattern, output, left_to_right,
    limit, target), of the command sequence [seq]; [target] is the kind filter *)
Definition pattern_to_str (left_to_right : bool) (limit : option Z) (target : option (cmd -> bool)) (seq : list cmd) : str :=
  let sep := match out with FLatex => lit "\," | _ => lit " " end in
  let l := match target with Some f => filter f seq | None => seq end in
  let l := if left_to_right then l else rev l in
  let wrap s := match out with FLatex => lit "\(" ++ s ++ lit "\)" | _ => s end in
  match limit with
  | Some k =>
      if (k <? Z.of_nat (List.length l))%Z then
        wrap (join sep (List.map command_to_str (pslice l (k - 1)))) ++
        lit "...(" ++ dec (Z.to_nat (Z.of_nat (List.length l) - k + 1)) ++ lit " more commands)"
      else wrap (join sep (List.map command_to_str l))
  | None => wrap (join sep (List.map command_to_str l))
  end.

(** pretty_print.py:327-341 set_to_str, of the items in iteration order *)
Definition set_to_str (d : list nat) : str :=
  let contents := join (lit ", ") (List.map dec d) in
  match out with FLatex => lit "\{" ++ contents ++ lit "\}" | _ => lit "{" ++ contents ++ lit "}" end.
(** pretty_print.py:344-379 correction_function_to_str, of the items of the mapping in order *)
Definition correction_function_to_str (cf : list (nat * nset)) (name : str) (multiline : bool) : str :=
  let sep := if multiline then match out with FLatex => lit ",\\" | _ => [10%N] end
             else match out with FLatex => lit ", \;" | _ => lit ", " end in
  join sep (List.map (fun p => name ++ lit "(" ++ dec (fst p) ++ lit ") = " ++ set_to_str (ord (snd p))) cf).
(** pretty_print.py:382-407 partial_order_to_str *)
Definition partial_order_to_str (layers : list nset) : str :=
  let sep := match out with FAscii => lit " < " | FUnicode => [32; 8826; 32]%N | FLatex => lit " \prec " end in
  join sep (List.map (fun l => set_to_str (ord l)) (rev layers)).
(** pretty_print.py:410-430 _component_separator_for *)
Definition component_separator (multiline : bool) : str :=
  if multiline then match out with FLatex => lit ";\\" | _ => [10%N] end
  else match out with FLatex => lit "; \;" | _ => lit "; " end.
(** pretty_print.py:433-462 flow_to_str; [prefix] is the class's _CF_PREFIX *)
Definition flow_to_str (cf : list (nat * nset)) (prefix : str) (layers : list nset) (multiline : bool) : str :=
  join (component_separator multiline) [correction_function_to_str cf prefix multiline; partial_order_to_str layers].
(** pretty_print.py:465-495 xzcorr_to_str *)
Definition xzcorr_to_str (x z : list (nat * nset)) (layers : list nset) (multiline : bool) : str :=
  join (component_separator multiline)
    [correction_function_to_str x (lit "x") multiline; correction_function_to_str z (lit "z") multiline; partial_order_to_str layers].
End Print.
