(** How a printed number or state is read: sums of terms separated by " + " and
    " - ", a term being a product (juxtaposition or an explicit sign) with "/"
    dividing by the next factor, from left to right, after optional minus signs.
    The value is a vector over the kets and the scalar part [None]. *)
From Coq Require Import Reals Lra ZArith Arith List Bool Lia FunctionalExtensionality.
From Verif Require Import Cplx NSet Statevec Density DMSim Pretty.
Import ListNotations.
Local Open Scope C_scope.

Definition vec := option (list bool) -> C.
Definition vscal (c : C) : vec := fun k => match k with None => c | Some _ => C0 end.
Definition beqb (a b : list bool) : bool := if list_eq_dec bool_dec a b then true else false.
Definition vket (b : list bool) : vec := fun k => match k with Some b' => if beqb b b' then C1 else C0 | None => C0 end.
Definition vadd (a b : vec) : vec := fun k => a k + b k.
(** scalars multiply kets; the product of two kets is not used and counts as 0 *)
Definition vmul (a b : vec) : vec := fun k => match k with None => a None * b None | Some _ => a None * b k + a k * b None end.
Definition vopp (a : vec) : vec := fun k => - a k.
Definition vdiv (a b : vec) : vec := vmul a (vscal (Cinv (b None))).
Definition cexp (z : C) : C := RtoC (exp (re z)) * cis (im z / PI).
(** state of the reader: the sum of the finished terms, the current term, and
    whether "/" was just read *)
Definition rstate := (vec * vec * bool)%type.
Definition read_step (v : vec) (s : rstate) (t : tok) : rstate :=
  let '(sum, acc, div) := s in
  match t with
  | TMinus => (sum, vopp acc, div)
  | TPlusS => (vadd sum acc, vscal C1, false)
  | TMinusS => (vadd sum acc, vscal (- C1), false)
  | TSig r => (vadd sum acc, vscal (RtoC r), false)
  | TMul => (sum, acc, div)
  | TSlash => (sum, acc, true)
  | _ => (sum, if div then vdiv acc v else vmul acc v, false)
  end.
Definition read_init : rstate := (vscal C0, vscal C1, false).
Definition read_end (s : rstate) : vec := let '(sum, acc, _) := s in vadd sum acc.
Fixpoint tval (t : tok) : vec :=
  let rd l := read_end (fold_left (fun s t => read_step (tval t) s t) l read_init) in
  match t with
  | TNum n => vscal (RtoC (INR n))
  | TDec r => vscal (RtoC r)
  | TSqrt n => vscal (RtoC (sqrt (INR n)))
  | TI => vscal Ci
  | TPi => vscal (RtoC PI)
  | TFrac a b => vdiv (rd a) (rd b)
  | TExp a => vscal (cexp (rd a None))
  | TPar a => rd a
  | TKet k => vket k
  | TSig _ | TMinus | TSlash | TMul | TPlusS | TMinusS => vscal C1
  end.
Definition reads (l : list tok) : vec := read_end (fold_left (fun s t => read_step (tval t) s t) l read_init).
(** no piece of the string is a rounded decimal *)
Definition exact_tok (t : tok) : bool := match t with TDec _ | TSig _ => false | _ => true end.
