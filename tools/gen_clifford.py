#!/usr/bin/env python3
"""Transcribe the tables of /repo/graphix/_db.py (read as text, never imported)
into rocq/theories/CliffordDb.v."""
import re, ast
src = open('/repo/graphix/_db.py').read()
ops = open('/repo/graphix/ops.py').read()
lines = src.split('\n')

def lineof(s):
    for i, l in enumerate(lines):
        if s in l: return i+1
def entry(e):
    v = complex(eval(e, {}, {}))
    return "(%d,%d)" % (int(v.real), int(v.imag))
def zz(t): return t
def mat(txt):
    m = re.search(r"np\.asarray\(\[\[(.*?), (.*?)\], \[(.*?), (.*?)\]\]\)", txt)
    es = [entry(x) for x in m.groups()]
    N = 1
    if "/ np.sqrt(2)" in txt: N = 2
    elif re.search(r"\) / 2\)", txt): N = 4
    return es, N
opm = {}
for k in ["I","X","Y","Z","S","SDG","H"]:
    l = re.search(r"    %s: ClassVar.*" % k, ops).group(0)
    opm[k] = mat(l)
mats = []
for i in range(24):
    l = re.search(r"^_C%d = .*" % i, src, re.M).group(0)
    m = re.match(r"_C\d+ = Ops\.(\w+)", l)
    mats.append(opm[m.group(1)] if m else mat(l))
def table(name):
    m = re.search(r"^%s = (\(.*?^\))" % name, src, re.M | re.S) or re.search(r"^%s = (\(.*\))$" % name, src, re.M)
    return m.group(1)
mul = ast.literal_eval(table("CLIFFORD_MUL"))
conj = ast.literal_eval(re.search(r"^CLIFFORD_CONJ = (\(.*\))$", src, re.M).group(1))
hsz = ast.literal_eval(table("CLIFFORD_HSZ_DECOMPOSITION"))
qasm = ast.literal_eval(table("CLIFFORD_TO_QASM3"))
meas = re.findall(r"_CMTuple\((.*)\),", table("CLIFFORD_MEASURE"))
meas = [re.findall(r"_CM\(Axis\.(.), Sign\.(\w+)\)", x) for x in meas]
pd = table("CLIFFORD_PAULI_DECOMPOSITION").split('\n')[1:-1]
pd = [re.findall(r"(-?)Measurement\.(.)", x) for x in pd]
assert len(mul)==24 and len(conj)==24 and len(hsz)==24 and len(qasm)==24 and len(meas)==24 and len(pd)==24
K = lambda i: "K%d" % i
out = []
w = out.append
w('''(** Model of the tables of graphix/_db.py.  GENERATED from the text of
    /repo/graphix/_db.py by /verif/tools/gen_clifford.py; do not edit. *)
From Coq Require Import ZArith List.
From Verif Require Import Fundamentals.
Import ListNotations.

(** clifford.py:46-81 class Clifford: the 24 values *)
Inductive clifford := %s.
(** clifford.py:263-269 Clifford.I, .X, .Y, .Z, .S, .SDG, .H *)
Notation gI := K0 (only parsing).
Notation gX := K1 (only parsing).
Notation gY := K2 (only parsing).
Notation gZ := K3 (only parsing).
Notation gS := K4 (only parsing).
Notation gSdg := K5 (only parsing).
Notation gH := K6 (only parsing).
Definition all_cliffords : list clifford := [%s].

(** Gaussian-integer matrices: an entry (a, b) is a + b j; the matrix
    represented by [(m, n)] is m / sqrt n. *)
Definition gint : Set := (Z * Z)%%type.
Record gmat := GMat { g00 : gint; g01 : gint; g10 : gint; g11 : gint }.
Open Scope Z_scope.
''' % (" | ".join(map(K, range(24))), "; ".join(map(K, range(24)))))
w("(** _db.py:%d-%d _C0.._C23, CLIFFORD (and ops.py:28-34 Ops.I..Ops.H) *)" % (lineof("_C0 = "), lineof("CLIFFORD_LABEL")-2))
w("Definition clifford_db (c : clifford) : gmat * Z :=\n  match c with")
for i,(es,N) in enumerate(mats):
    w("  | K%d => (GMat %s, %d)" % (i, " ".join(es), N))
w("  end.\nClose Scope Z_scope.\n")
a=lineof("CLIFFORD_MUL = "); 
w("(** _db.py:%d-%d CLIFFORD_MUL *)" % (a, a+25))
w("Definition clifford_mul_row (c : clifford) : list clifford :=\n  match c with")
for i,r in enumerate(mul): w("  | K%d => [%s]" % (i, "; ".join(map(K,r))))
w("  end.")
w("(** position of a Clifford in the enumeration (its [value]) *)\nDefinition clifford_val (c : clifford) : nat :=\n  match c with")
for i in range(24): w("  | K%d => %d" % (i,i))
w("  end.")
a=lineof("CLIFFORD_CONJ = ")
w("(** _db.py:%d CLIFFORD_CONJ *)" % a)
w("Definition clifford_conj_db (c : clifford) : clifford :=\n  match c with")
for i,r in enumerate(conj): w("  | K%d => K%d" % (i, r))
w("  end.")
a=lineof("CLIFFORD_MEASURE = ")
w("(** _db.py:%d-%d CLIFFORD_MEASURE: images of X, Y, Z *)" % (a, a+25))
w("Definition clifford_measure_db (c : clifford) : (axis * sign) * (axis * sign) * (axis * sign) :=\n  match c with")
sg={"PLUS":"Plus","MINUS":"Minus"}
for i,r in enumerate(meas): w("  | K%d => (%s)" % (i, ", ".join("(A%s, %s)" % (x, sg[s]) for x,s in r)))
w("  end.")
a=lineof("CLIFFORD_HSZ_DECOMPOSITION = ")
w("(** _db.py:%d-%d CLIFFORD_HSZ_DECOMPOSITION *)" % (a, a+25))
w("Definition clifford_hsz_db (c : clifford) : list clifford :=\n  match c with")
for i,r in enumerate(hsz): w("  | K%d => [%s]" % (i, "; ".join(map(K,r))))
w("  end.")
a=lineof("CLIFFORD_TO_QASM3 = ")
Q={"id":0,"x":1,"y":2,"z":3,"s":4,"sdg":5,"h":6}
w("(** _db.py:%d-%d CLIFFORD_TO_QASM3; the OpenQASM3 gate names id, x, y, z, s, sdg, h are\n    written as the Clifford with the same matrix *)" % (a, a+25))
w("Definition clifford_qasm3_db (c : clifford) : list clifford :=\n  match c with")
for i,r in enumerate(qasm): w("  | K%d => [%s]" % (i, "; ".join(K(Q[x]) for x in r)))
w("  end.")
a=lineof("CLIFFORD_PAULI_DECOMPOSITION = ")
w("(** _db.py:%d-%d CLIFFORD_PAULI_DECOMPOSITION *)" % (a, a+25))
w("Definition clifford_pauli_db (c : clifford) : list (axis * sign) :=\n  match c with")
for i,r in enumerate(pd): w("  | K%d => [%s]" % (i, "; ".join("(A%s, %s)" % (x, "Minus" if s else "Plus") for s,x in r)))
w("  end.")
open('/verif/rocq/theories/CliffordDb.v','w').write("\n".join(out)+"\n")
