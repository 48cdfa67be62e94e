(** Model of graphix/qasm3_exporter.py and of the angle rendering of
    graphix/pretty_print.py: the OpenQASM 3 program printed for a pattern or a
    circuit, as the abstract syntax tree of its statements (comments and blank
    lines are dropped; the boilerplate header is constant), with a semantics of
    the emitted fragment of OpenQASM 3. *)
From Coq Require Import Reals Lra ZArith Arith List Bool Lia Permutation FunctionalExtensionality.
From Verif Require Import Cplx Mat2 NSet QState Fundamentals CliffordDb Clifford Measure Layer Pattern Statevec Density Circuit Swaps OpenGraph PropRewrite.
Import ListNotations.
Local Open Scope C_scope.

(** * Angle expressions *)
Inductive qexpr := EInt (n : Z) | EPi | EFloat (r : R) | ENeg (e : qexpr) | EMul (a b : qexpr) | EDiv (a b : qexpr).
(** value of a printed expression, in radians *)
Fixpoint qeval (e : qexpr) : R :=
  match e with
  | EInt n => IZR n | EPi => PI | EFloat r => r
  | ENeg e => (- qeval e)%R | EMul a b => (qeval a * qeval b)%R | EDiv a b => (qeval a / qeval b)%R
  end.
(** math.isclose with its default tolerances (rel_tol = 1e-09, abs_tol = 0) *)
Definition isclose (a b : R) : bool := if Rle_dec (Rabs (a - b)) (/ 1000000000 * Rmax (Rabs a) (Rabs b)) then true else false.
Definition frac_val (q : Z * positive) : R := (IZR (fst q) / IZR (Zpos (snd q)))%R.
(** pretty_print.py:77-149 angle_to_str(angle, ASCII, multiplication_sign=True);
    [lim] is Fraction(angle).limit_denominator(1000).  A float is printed with
    its exact value. *)
Definition angle_to_str (lim : R -> Z * positive) (angle : R) : qexpr :=
  let '(num, den) := lim angle in
  if negb (isclose angle (frac_val (num, den))) then EFloat (angle * PI)
  else
    let sign e := if (num <? 0)%Z then ENeg e else e in
    let n := Z.abs num in
    if (den =? 1)%positive then
      if (n =? 0)%Z then EInt 0 else if (n =? 1)%Z then sign EPi else sign (EMul (EInt n) EPi)
    else sign (EDiv (if (n =? 1)%Z then EPi else EMul (EInt n) EPi) (EInt (Zpos den))).

(** * Programs *)
(** single-qubit gates of stdgates.inc *)
Inductive qgate := Gid | Gx | Gy | Gz | Gs | Gsdg | Gh | Grx (e : qexpr) | Gry (e : qexpr) | Grz (e : qexpr).
Inductive qstmt :=
| SQubit (n : nat)                       (** qubit qn; *)
| SGate (g : qgate) (n : nat)            (** g qn; *)
| SCz (u v : nat) | SCx (c t : nat) | SSwap (u v : nat)
| SCrz (e : qexpr) (c t : nat) | SCcx (c0 c1 t : nat)
| SBit (n : nat)                         (** bit cn; *)
| SMeas (n : nat)                        (** cn = measure qn; *)
| SIf (cond : list nat) (g : qgate) (n : nat).  (** if (ca ^ cb ^ ...) { g qn; } *)

(** _db.py:204-229: the names used by CLIFFORD_TO_QASM3 (a table entry is
    written in CliffordDb as the Clifford with that matrix) *)
Definition qname (c : clifford) : qgate :=
  match c with K0 => Gid | K1 => Gx | K2 => Gy | K3 => Gz | K4 => Gs | K5 => Gsdg | K6 => Gh | _ => Gid end.

(** * Export of a pattern *)
Section Export.
  Variable lim : R -> Z * positive.
  Variable it : iter.
  (** [state == BasicStates.ZERO] *)
  Variable zerob : vec2 -> bool.
  (** qasm3_exporter.py:257-266 state_to_qasm3_lines *)
  Definition state_qasm (n : nat) (st : nstate) : res (list qstmt) :=
    match st with
    | SPlus => Ok [SGate Gh n]
    | SVec v => if zerob v then Ok [] else Err EValue
    end.
  (** qasm3_exporter.py:269-286 domain_to_qasm3_lines *)
  Definition domain_qasm (d : nset) (g : qgate) (n : nat) : list qstmt :=
    match it d with [] => [] | l => [SIf l g n] end.
  (** qasm3_exporter.py:89-93 angle_to_qasm3 (symbolic angles are not modelled) *)
  Definition angle_qasm (a : R) : qexpr := angle_to_str lim a.
  (** qasm3_exporter.py:221-246 the M case of command_to_qasm3_lines *)
  Definition meas_qasm (n : nat) (m : measurement) (s t : nset) : list qstmt :=
    let '(a, p) := to_bloch m in
    domain_qasm s Gx n ++ domain_qasm t Gz n
    ++ (match p with PXY => [SGate Gh n] | _ => [] end)
    ++ (if Req_EM_T a 0 then [] else
        [SGate (match p with
                | PXY => Grx (angle_qasm (- a))
                | PXZ => Gry (angle_qasm (- a))
                | PYZ => Grx (angle_qasm a)
                end) n])
    ++ [SBit n; SMeas n].
  (** qasm3_exporter.py:199-254 command_to_qasm3_lines *)
  Definition cmd_qasm (c : cmd) : res (list qstmt) :=
    match c with
    | CN n st => do l <- state_qasm n st; Ok (SQubit n :: l)
    | CE u v => Ok [SCz u v]
    | CM n m s t => Ok (meas_qasm n m s t)
    | CX n d => Ok (domain_qasm d Gx n)
    | CZ n d => Ok (domain_qasm d Gz n)
    | CC n c => Ok (map (fun g => SGate (qname g) n) (clifford_qasm3 c))
    | CS _ _ | CT => Err EValue
    end.
  Fixpoint cmds_qasm (l : list cmd) : res (list qstmt) :=
    match l with [] => Ok [] | c :: l' => do a <- cmd_qasm c; do b <- cmds_qasm l'; Ok (a ++ b) end.
  (** qasm3_exporter.py:181-196: the loop on the input nodes; [input n] is the
      state given for node [n] ([None]: a dictionary without that key) *)
  Fixpoint inputs_qasm (input : nat -> option nstate) (l : list nat) : res (list qstmt) :=
    match l with
    | [] => Ok []
    | n :: l' =>
        match input n with
        | None => Err EKey
        | Some st => do a <- state_qasm n st; do b <- inputs_qasm input l'; Ok (SQubit n :: a ++ b)
        end
    end.
  (** qasm3_exporter.py:158-178 pattern_to_qasm3, pattern_to_qasm3_lines *)
  Definition pattern_to_qasm3 (p : pattern) (input : nat -> option nstate) : res (list qstmt) :=
    do a <- inputs_qasm input (p_in p); do b <- cmds_qasm (p_seq p); Ok (a ++ b).

  (** * Export of a circuit: statements on the registers q[width], b[width] *)
  (** qasm3_exporter.py:96-155 instruction_to_qasm3 *)
  Definition instr_qasm (i : instr) : res qstmt :=
    match i with
    | IM q ax => match ax with AZ => Ok (SMeas q) | _ => Err EValue end
    | IRX q a => Ok (SGate (Grx (angle_qasm a)) q)
    | IRY q a => Ok (SGate (Gry (angle_qasm a)) q)
    | IRZ q a => Ok (SGate (Grz (angle_qasm a)) q)
    | IJ _ _ => Err EValue
    | IH q => Ok (SGate Gh q) | IS q => Ok (SGate Gs q) | IX q => Ok (SGate Gx q) | IY q => Ok (SGate Gy q) | IZ q => Ok (SGate Gz q)
    | II q => Ok (SGate Gid q)
    | ICNOT t c => Ok (SCx c t)
    | ISWAP u v => Ok (SSwap u v)
    | ICZ u v => Ok (SCz u v)
    | IRZZ t c a => Ok (SCrz (angle_qasm a) c t)
    | ICCX t c0 c1 => Ok (SCcx c0 c1 t)
    end.
  (** qasm3_exporter.py:25-43 circuit_to_qasm3, circuit_to_qasm3_lines: the width
      (size of the two registers), whether the register b is declared, and the
      statements *)
  Definition circuit_to_qasm3 (transpile : bool) (c : circuit) : res (nat * bool * list qstmt) :=
    do c <- (if transpile then do d <- j_to_rzh c; to_z_axis d else Ok c);
    do l <- rmap instr_qasm (c_instr c);
    Ok (c_width c, existsb is_meas (c_instr c), l).
End Export.

(** * Semantics of the emitted fragment of OpenQASM 3 *)
Definition ket0 : vec2 := Vec2 C1 C0.
(** the matrices of stdgates.inc, up to a global phase for rx, ry, rz; angles in radians *)
Definition qmat (g : qgate) : mat2 :=
  match g with
  | Gid => mid | Gx => mX | Gy => mY | Gz => mZ
  | Gs => Mat2 C1 C0 C0 Ci | Gsdg => Mat2 C1 C0 C0 (- Ci)
  | Gh => let q := RtoC (/ sqrt 2) in Mat2 q q q (- q)
  | Grx e => let t := (qeval e / 2)%R in Mat2 (RtoC (cos t)) (mkC 0 (- sin t)) (mkC 0 (- sin t)) (RtoC (cos t))
  | Gry e => let t := (qeval e / 2)%R in Mat2 (RtoC (cos t)) (RtoC (- sin t)) (RtoC (sin t)) (RtoC (cos t))
  | Grz e => let t := (qeval e / 2)%R in Mat2 (mkC (cos t) (- sin t)) C0 C0 (mkC (cos t) (sin t))
  end.
(** declared qubits and bits, values of the bits, (unnormalised) state *)
Record qrun := QRun { qr_q : list nat; qr_c : list nat; qr_b : nat -> option bool; qr_psi : state }.
(** value of a condition; [None] if some bit has no value *)
Fixpoint qcond (b : nat -> option bool) (l : list nat) : option bool :=
  match l with
  | [] => Some false
  | n :: l' => match b n, qcond b l' with Some x, Some y => Some (xorb x y) | _, _ => None end
  end.
Definition qcheck (st : qrun) (l : list nat) : bool := forallb (fun n => lmem n (qr_q st)) l && ndb l.
(** one statement, in the branch where measuring qubit [n] gives [o n]:
    [None] if the statement is not valid (undeclared or repeated name, equal
    operands, bit without a value).  A qubit is declared in state |0>; a
    measured qubit stays in the register, in the measured state. *)
Definition qstep (o : nat -> bool) (st : qrun) (s : qstmt) : option qrun :=
  let set_psi F := Some (QRun (qr_q st) (qr_c st) (qr_b st) (F (qr_psi st))) in
  match s with
  | SQubit n => if lmem n (qr_q st) then None
                else Some (QRun (n :: qr_q st) (qr_c st) (qr_b st) (app_op (OPrep ket0 n) (qr_psi st)))
  | SGate g n => if qcheck st [n] then set_psi (app_op (OApp1 (qmat g) n)) else None
  | SCz u v => if qcheck st [u; v] then set_psi (app_op (OCz u v)) else None
  | SCx c t => if qcheck st [c; t] then set_psi (fun psi f => psi (upd f t (xorb (f t) (f c)))) else None
  | SSwap u v => if qcheck st [u; v] then set_psi (swapst u v) else None
  | SCrz e c t => if qcheck st [c; t] then
      set_psi (fun psi f => (if f c then let h := (qeval e / 2)%R in mkC (cos h) (if f t then sin h else - sin h) else C1) * psi f) else None
  | SCcx c0 c1 t => if qcheck st [c0; c1; t] then set_psi (fun psi f => psi (upd f t (xorb (f t) (f c0 && f c1)))) else None
  | SBit n => if lmem n (qr_c st) then None else Some (QRun (qr_q st) (n :: qr_c st) (qr_b st) (qr_psi st))
  | SMeas n => if qcheck st [n] && lmem n (qr_c st) then
      Some (QRun (qr_q st) (qr_c st) (fun k => if (k =? n)%nat then Some (o n) else qr_b st k)
              (fun f => if Bool.eqb (f n) (o n) then qr_psi st f else C0)) else None
  | SIf l g n =>
      match qcond (qr_b st) l with
      | None => None
      | Some b => if qcheck st [n] then (if b then set_psi (app_op (OApp1 (qmat g) n)) else Some st) else None
      end
  end.
Fixpoint qexec (o : nat -> bool) (l : list qstmt) (st : qrun) : option qrun :=
  match l with [] => Some st | s :: l' => match qstep o st s with Some st' => qexec o l' st' | None => None end end.
Definition qinit (psi : state) : qrun := QRun [] [] (fun _ => None) psi.
(** qubit[w] q; bit[w] b; on a register in state psi *)
Definition qregs (w : nat) (bits : bool) (psi : state) : qrun := QRun (range w) (if bits then range w else []) (fun _ => None) psi.
