(** Model of the tables of graphix/_db.py.  GENERATED from the text of
    /repo/graphix/_db.py by /verif/tools/gen_clifford.py; do not edit. *)
From Coq Require Import ZArith List.
From Verif Require Import Fundamentals.
Import ListNotations.

(** clifford.py:46-81 class Clifford: the 24 values *)
Inductive clifford := K0 | K1 | K2 | K3 | K4 | K5 | K6 | K7 | K8 | K9 | K10 | K11 | K12 | K13 | K14 | K15 | K16 | K17 | K18 | K19 | K20 | K21 | K22 | K23.
(** clifford.py:199-205 Clifford.I, .X, .Y, .Z, .S, .SDG, .H *)
Notation gI := K0 (only parsing).
Notation gX := K1 (only parsing).
Notation gY := K2 (only parsing).
Notation gZ := K3 (only parsing).
Notation gS := K4 (only parsing).
Notation gSdg := K5 (only parsing).
Notation gH := K6 (only parsing).
Definition all_cliffords : list clifford := [K0; K1; K2; K3; K4; K5; K6; K7; K8; K9; K10; K11; K12; K13; K14; K15; K16; K17; K18; K19; K20; K21; K22; K23].

(** Gaussian-integer matrices: an entry (a, b) is a + b j; the matrix
    represented by [(m, n)] is m / sqrt n. *)
Definition gint : Set := (Z * Z)%type.
Record gmat := GMat { g00 : gint; g01 : gint; g10 : gint; g11 : gint }.
Open Scope Z_scope.

(** _db.py:15-67 _C0.._C23, CLIFFORD (and ops.py:28-34 Ops.I..Ops.H) *)
Definition clifford_db (c : clifford) : gmat * Z :=
  match c with
  | K0 => (GMat (1,0) (0,0) (0,0) (1,0), 1)
  | K1 => (GMat (0,0) (1,0) (1,0) (0,0), 1)
  | K2 => (GMat (0,0) (0,-1) (0,1) (0,0), 1)
  | K3 => (GMat (1,0) (0,0) (0,0) (-1,0), 1)
  | K4 => (GMat (1,0) (0,0) (0,0) (0,1), 1)
  | K5 => (GMat (1,0) (0,0) (0,0) (0,-1), 1)
  | K6 => (GMat (1,0) (1,0) (1,0) (-1,0), 2)
  | K7 => (GMat (1,0) (0,-1) (0,-1) (1,0), 2)
  | K8 => (GMat (1,0) (-1,0) (1,0) (1,0), 2)
  | K9 => (GMat (0,0) (1,-1) (-1,-1) (0,0), 2)
  | K10 => (GMat (0,0) (-1,-1) (1,-1) (0,0), 2)
  | K11 => (GMat (1,0) (-1,0) (-1,0) (-1,0), 2)
  | K12 => (GMat (-1,0) (-1,0) (1,0) (-1,0), 2)
  | K13 => (GMat (0,1) (-1,0) (1,0) (0,-1), 2)
  | K14 => (GMat (0,1) (1,0) (-1,0) (0,-1), 2)
  | K15 => (GMat (-1,0) (0,-1) (0,-1) (-1,0), 2)
  | K16 => (GMat (-1,1) (1,1) (-1,1) (-1,-1), 4)
  | K17 => (GMat (-1,1) (-1,-1) (1,-1) (-1,-1), 4)
  | K18 => (GMat (1,1) (1,-1) (-1,-1) (1,-1), 4)
  | K19 => (GMat (-1,-1) (1,-1) (-1,-1) (-1,1), 4)
  | K20 => (GMat (-1,-1) (-1,-1) (1,-1) (-1,1), 4)
  | K21 => (GMat (-1,1) (-1,1) (1,1) (-1,-1), 4)
  | K22 => (GMat (1,1) (-1,-1) (1,-1) (1,-1), 4)
  | K23 => (GMat (-1,1) (1,-1) (-1,-1) (-1,-1), 4)
  end.
Close Scope Z_scope.

(** _db.py:98-123 CLIFFORD_MUL *)
Definition clifford_mul_row (c : clifford) : list clifford :=
  match c with
  | K0 => [K0; K1; K2; K3; K4; K5; K6; K7; K8; K9; K10; K11; K12; K13; K14; K15; K16; K17; K18; K19; K20; K21; K22; K23]
  | K1 => [K1; K0; K3; K2; K9; K10; K8; K15; K6; K4; K5; K12; K11; K14; K13; K7; K19; K18; K17; K16; K22; K23; K20; K21]
  | K2 => [K2; K3; K0; K1; K10; K9; K11; K13; K12; K5; K4; K6; K8; K7; K15; K14; K17; K16; K19; K18; K23; K22; K21; K20]
  | K3 => [K3; K2; K1; K0; K5; K4; K12; K14; K11; K10; K9; K8; K6; K15; K7; K13; K18; K19; K16; K17; K21; K20; K23; K22]
  | K4 => [K4; K10; K9; K5; K3; K0; K20; K16; K23; K1; K2; K22; K21; K19; K18; K17; K14; K13; K7; K15; K12; K6; K8; K11]
  | K5 => [K5; K9; K10; K4; K0; K3; K21; K18; K22; K2; K1; K23; K20; K17; K16; K19; K7; K15; K14; K13; K6; K12; K11; K8]
  | K6 => [K6; K12; K11; K8; K19; K16; K0; K20; K3; K17; K18; K2; K1; K23; K22; K21; K5; K9; K10; K4; K7; K15; K14; K13]
  | K7 => [K7; K15; K14; K13; K21; K22; K19; K1; K16; K23; K20; K17; K18; K2; K3; K0; K6; K12; K11; K8; K5; K9; K10; K4]
  | K8 => [K8; K11; K12; K6; K16; K19; K1; K22; K2; K18; K17; K3; K0; K21; K20; K23; K10; K4; K5; K9; K15; K7; K13; K14]
  | K9 => [K9; K5; K4; K10; K2; K1; K22; K19; K21; K0; K3; K20; K23; K16; K17; K18; K13; K14; K15; K7; K11; K8; K6; K12]
  | K10 => [K10; K4; K5; K9; K1; K2; K23; K17; K20; K3; K0; K21; K22; K18; K19; K16; K15; K7; K13; K14; K8; K11; K12; K6]
  | K11 => [K11; K8; K6; K12; K18; K17; K2; K23; K1; K16; K19; K0; K3; K20; K21; K22; K9; K5; K4; K10; K13; K14; K15; K7]
  | K12 => [K12; K6; K8; K11; K17; K18; K3; K21; K0; K19; K16; K1; K2; K22; K23; K20; K4; K10; K9; K5; K14; K13; K7; K15]
  | K13 => [K13; K14; K15; K7; K22; K21; K18; K3; K17; K20; K23; K16; K19; K0; K1; K2; K11; K8; K6; K12; K9; K5; K4; K10]
  | K14 => [K14; K13; K7; K15; K20; K23; K17; K2; K18; K22; K21; K19; K16; K1; K0; K3; K12; K6; K8; K11; K4; K10; K9; K5]
  | K15 => [K15; K7; K13; K14; K23; K20; K16; K0; K19; K21; K22; K18; K17; K3; K2; K1; K8; K11; K12; K6; K10; K4; K5; K9]
  | K16 => [K16; K17; K18; K19; K6; K8; K15; K10; K14; K11; K12; K13; K7; K9; K5; K4; K20; K21; K22; K23; K0; K1; K2; K3]
  | K17 => [K17; K16; K19; K18; K11; K12; K14; K4; K15; K6; K8; K7; K13; K5; K9; K10; K23; K22; K21; K20; K2; K3; K0; K1]
  | K18 => [K18; K19; K16; K17; K12; K11; K13; K9; K7; K8; K6; K15; K14; K10; K4; K5; K21; K20; K23; K22; K3; K2; K1; K0]
  | K19 => [K19; K18; K17; K16; K8; K6; K7; K5; K13; K12; K11; K14; K15; K4; K10; K9; K22; K23; K20; K21; K1; K0; K3; K2]
  | K20 => [K20; K21; K22; K23; K15; K14; K4; K12; K5; K13; K7; K9; K10; K11; K8; K6; K0; K1; K2; K3; K16; K17; K18; K19]
  | K21 => [K21; K20; K23; K22; K13; K7; K5; K6; K4; K15; K14; K10; K9; K8; K11; K12; K3; K2; K1; K0; K18; K19; K16; K17]
  | K22 => [K22; K23; K20; K21; K7; K13; K9; K11; K10; K14; K15; K4; K5; K12; K6; K8; K1; K0; K3; K2; K19; K18; K17; K16]
  | K23 => [K23; K22; K21; K20; K14; K15; K10; K8; K9; K7; K13; K5; K4; K6; K12; K11; K2; K3; K0; K1; K17; K16; K19; K18]
  end.
(** position of a Clifford in the enumeration (its [value]) *)
Definition clifford_val (c : clifford) : nat :=
  match c with
  | K0 => 0
  | K1 => 1
  | K2 => 2
  | K3 => 3
  | K4 => 4
  | K5 => 5
  | K6 => 6
  | K7 => 7
  | K8 => 8
  | K9 => 9
  | K10 => 10
  | K11 => 11
  | K12 => 12
  | K13 => 13
  | K14 => 14
  | K15 => 15
  | K16 => 16
  | K17 => 17
  | K18 => 18
  | K19 => 19
  | K20 => 20
  | K21 => 21
  | K22 => 22
  | K23 => 23
  end.
(** _db.py:126 CLIFFORD_CONJ *)
Definition clifford_conj_db (c : clifford) : clifford :=
  match c with
  | K0 => K0
  | K1 => K1
  | K2 => K2
  | K3 => K3
  | K4 => K5
  | K5 => K4
  | K6 => K6
  | K7 => K15
  | K8 => K12
  | K9 => K9
  | K10 => K10
  | K11 => K11
  | K12 => K8
  | K13 => K13
  | K14 => K14
  | K15 => K7
  | K16 => K20
  | K17 => K22
  | K18 => K23
  | K19 => K21
  | K20 => K16
  | K21 => K19
  | K22 => K17
  | K23 => K18
  end.
(** _db.py:147-172 CLIFFORD_MEASURE: images of X, Y, Z *)
Definition clifford_measure_db (c : clifford) : (axis * sign) * (axis * sign) * (axis * sign) :=
  match c with
  | K0 => ((AX, Plus), (AY, Plus), (AZ, Plus))
  | K1 => ((AX, Plus), (AY, Minus), (AZ, Minus))
  | K2 => ((AX, Minus), (AY, Plus), (AZ, Minus))
  | K3 => ((AX, Minus), (AY, Minus), (AZ, Plus))
  | K4 => ((AY, Minus), (AX, Plus), (AZ, Plus))
  | K5 => ((AY, Plus), (AX, Minus), (AZ, Plus))
  | K6 => ((AZ, Plus), (AY, Minus), (AX, Plus))
  | K7 => ((AX, Plus), (AZ, Minus), (AY, Plus))
  | K8 => ((AZ, Plus), (AY, Plus), (AX, Minus))
  | K9 => ((AY, Minus), (AX, Minus), (AZ, Minus))
  | K10 => ((AY, Plus), (AX, Plus), (AZ, Minus))
  | K11 => ((AZ, Minus), (AY, Minus), (AX, Minus))
  | K12 => ((AZ, Minus), (AY, Plus), (AX, Plus))
  | K13 => ((AX, Minus), (AZ, Minus), (AY, Minus))
  | K14 => ((AX, Minus), (AZ, Plus), (AY, Plus))
  | K15 => ((AX, Plus), (AZ, Plus), (AY, Minus))
  | K16 => ((AZ, Plus), (AX, Plus), (AY, Plus))
  | K17 => ((AZ, Minus), (AX, Plus), (AY, Minus))
  | K18 => ((AZ, Minus), (AX, Minus), (AY, Plus))
  | K19 => ((AZ, Plus), (AX, Minus), (AY, Minus))
  | K20 => ((AY, Plus), (AZ, Plus), (AX, Plus))
  | K21 => ((AY, Minus), (AZ, Minus), (AX, Plus))
  | K22 => ((AY, Plus), (AZ, Minus), (AX, Minus))
  | K23 => ((AY, Minus), (AZ, Plus), (AX, Minus))
  end.
(** _db.py:175-200 CLIFFORD_HSZ_DECOMPOSITION *)
Definition clifford_hsz_db (c : clifford) : list clifford :=
  match c with
  | K0 => [K0]
  | K1 => [K6; K3; K6]
  | K2 => [K6; K3; K6; K3]
  | K3 => [K3]
  | K4 => [K4]
  | K5 => [K4; K3]
  | K6 => [K6]
  | K7 => [K6; K4; K6]
  | K8 => [K6; K3]
  | K9 => [K6; K3; K6; K4]
  | K10 => [K4; K6; K3; K6]
  | K11 => [K3; K6; K3]
  | K12 => [K3; K6]
  | K13 => [K6; K4; K6; K3]
  | K14 => [K4; K6; K3; K4]
  | K15 => [K4; K6; K4]
  | K16 => [K6; K4; K3]
  | K17 => [K3; K6; K4]
  | K18 => [K3; K6; K3; K4]
  | K19 => [K6; K4]
  | K20 => [K4; K6]
  | K21 => [K4; K3; K6]
  | K22 => [K4; K3; K6; K3]
  | K23 => [K4; K6; K3]
  end.
(** _db.py:204-229 CLIFFORD_TO_QASM3; the OpenQASM3 gate names id, x, y, z, s, sdg, h are
    written as the Clifford with the same matrix *)
Definition clifford_qasm3_db (c : clifford) : list clifford :=
  match c with
  | K0 => [K0]
  | K1 => [K1]
  | K2 => [K2]
  | K3 => [K3]
  | K4 => [K4]
  | K5 => [K5]
  | K6 => [K6]
  | K7 => [K5; K6; K5]
  | K8 => [K6; K1]
  | K9 => [K5; K2]
  | K10 => [K5; K1]
  | K11 => [K6; K2]
  | K12 => [K6; K3]
  | K13 => [K5; K6; K5; K2]
  | K14 => [K5; K6; K4]
  | K15 => [K5; K6; K5; K1]
  | K16 => [K5; K6]
  | K17 => [K5; K6; K2]
  | K18 => [K5; K6; K3]
  | K19 => [K5; K6; K1]
  | K20 => [K6; K4]
  | K21 => [K6; K5]
  | K22 => [K6; K1; K5]
  | K23 => [K6; K1; K4]
  end.
(** _db.py:231-256 CLIFFORD_PAULI_DECOMPOSITION *)
Definition clifford_pauli_db (c : clifford) : list (axis * sign) :=
  match c with
  | K0 => []
  | K1 => [(AX, Plus); (AX, Minus)]
  | K2 => [(AX, Minus); (AX, Minus)]
  | K3 => [(AX, Minus); (AX, Plus)]
  | K4 => [(AY, Minus); (AX, Plus)]
  | K5 => [(AY, Plus); (AX, Plus)]
  | K6 => [(AX, Plus)]
  | K7 => [(AX, Plus); (AY, Minus)]
  | K8 => [(AX, Minus)]
  | K9 => [(AY, Minus); (AX, Minus)]
  | K10 => [(AY, Plus); (AX, Minus)]
  | K11 => [(AX, Plus); (AX, Minus); (AX, Minus)]
  | K12 => [(AX, Plus); (AX, Minus); (AX, Plus)]
  | K13 => [(AX, Minus); (AY, Minus)]
  | K14 => [(AX, Minus); (AY, Plus)]
  | K15 => [(AX, Plus); (AY, Plus)]
  | K16 => [(AY, Plus)]
  | K17 => [(AX, Plus); (AX, Minus); (AY, Plus)]
  | K18 => [(AX, Plus); (AX, Minus); (AY, Minus)]
  | K19 => [(AY, Minus)]
  | K20 => [(AY, Plus); (AY, Plus)]
  | K21 => [(AY, Minus); (AY, Minus)]
  | K22 => [(AY, Plus); (AY, Minus)]
  | K23 => [(AY, Minus); (AY, Plus)]
  end.
