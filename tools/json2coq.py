"""Write the Coq term for /repo/docs/Lc2ppiK.json (datatypes of SerFormat.v).

Usage: json2coq.py INPUT.json PREFIX > OUTPUT.v
Numbers are the decimal fractions in the text of the file.  Keys that the code
does not read are left out, as in SerFormat.v.
"""
import json
import re
import sys
from decimal import Decimal
from fractions import Fraction

src, pre = sys.argv[1:3]
m = json.load(open(src), parse_float=Decimal)


def z(n):
    return f"({n})" if n < 0 else str(n)


def q(x):
    f = Fraction(x)
    return f"(dec {z(f.numerator)} {f.denominator})"


def s(x):
    assert '"' not in x
    return f'"{x}"'


def item(x):
    return f"It {x}" if isinstance(x, int) else f"Sub {items(x)}"


def items(xs):
    return "[" + "; ".join(item(x) for x in xs) + "]"


def doubled(x):
    f = 2 * Fraction(x)
    assert f.denominator == 1
    return z(f.numerator)


def opt(x, f):
    return "None" if x is None else f"(Some {f(x)})"


def numbers(d):
    return "[" + "; ".join(f"({s(k)}, {q(v)})" for k, v in d.items() if isinstance(v, (int, Decimal))) + "]"


def weight(w):
    a, sign, b = re.fullmatch(r"(-?[0-9.e-]+) ([+-]) ([0-9.e-]+)i", w).groups()
    return f"({q(a)}, {q(sign + b)})"


def state(x):
    return f"StateDef {x['index']} {s(x['name'])} {q(x['spin'])} {q(x['mass'])}"


def vertex(v):
    hs = opt(v.get("helicities"), lambda l: "[" + "; ".join(doubled(h) for h in l) + "]")
    return (f"Vertex {s(v['type'])} {items(v['node'])} {opt(v.get('formfactor'), s)} {hs}"
            f" {opt(v.get('parity_factor'), s)} {opt(v.get('l'), int)} {opt(v.get('s'), doubled)}")


def propagator(p):
    return f"Propagator {q(p['spin'])} {items(p['node'])} {s(p['parametrization'])}"


def chain(c):
    ps = "; ".join(propagator(p) for p in c["propagators"])
    vs = ";\n     ".join(vertex(v) for v in c["vertices"])
    return f"ChainDef {s(c['name'])} [{ps}]\n    [{vs}]\n    {items(c['topology'])} {weight(c['weight'])}"


def function(f):
    return f"FuncDef {s(f['name'])} {s(f['type'])} {numbers(f)} " + opt(
        f.get("channels"), lambda l: "[" + "; ".join(numbers(c) for c in l) + "]")


def lst(xs):
    return "[" + ";\n   ".join(xs) + "]"


print(f"(** The model definition of {src}, written by tools/json2coq.py *)")
print("""From Coq Require Import String ZArith QArith Qcanon List.
From Verif Require Import Prelude SerFormat.
Import ListNotations.
Local Open Scope string_scope.
Local Open Scope Z_scope.
Local Open Scope list_scope.

(** A number of the file *)
Definition dec (n : Z) (d : positive) : Qc := Q2Qc (n # d).""")
(dist,) = m["distributions"]
dd = dist["decay_description"]
k = dd["kinematics"]
print(f"Definition {pre}_initial : state_def := {state(k['initial_state'])}.")
print(f"Definition {pre}_final : list state_def :=\n  {lst(map(state, k['final_state']))}.")
for i, c in enumerate(dd["chains"]):
    print(f"Definition {pre}_chain{i} : chain_def :=\n  {chain(c)}.")
n = len(dd["chains"])
print(f"Definition {pre}_chains : list chain_def :=\n  [{'; '.join(f'{pre}_chain{i}' for i in range(n))}].")
print(f"Definition {pre}_dist : distribution := Distribution {pre}_initial {pre}_final {items(dd['reference_topology'])} {pre}_chains.")
print(f"Definition {pre}_functions : list func_def :=\n  {lst(map(function, m['functions']))}.")
print(f"Definition {pre}_model : model_def := ModelDef [{pre}_dist] {pre}_functions.")
