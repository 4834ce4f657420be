#!/usr/bin/env python3
"""Print rocq/theories/PointGroupData.v: the two literal tables of /repo/src/spgrep/pointgroup.py.

The source is parsed as text (ast); nothing of it is executed.
"""
import ast, sys

src = open("/repo/src/spgrep/pointgroup.py").read()
lines = {}
vals = {}
for node in ast.parse(src).body:
    if isinstance(node, ast.Assign) and node.targets[0].id in ("pg_dataset", "pg_solvable_chain"):
        vals[node.targets[0].id] = ast.literal_eval(node.value)
        lines[node.targets[0].id] = (node.lineno, node.end_lineno)

def z(x):
    return f"({x})" if x < 0 else str(x)

out = []
out.append("(** Generated by tools/gen_pointgroup.py from the text of src/spgrep/pointgroup.py. Do not edit. *)")
out.append("From Coq Require Import List String ZArith.")
out.append("From Verif Require Import Mat3.")
out.append("Import ListNotations.\nOpen Scope string_scope.\n")
a, b = lines["pg_dataset"]
out.append(f"(** pointgroup.py:{a}-{b} pg_dataset: symbol -> settings -> operations. *)")
out.append("Definition pg_dataset : list (string * list (list mat)) := [")
ent = []
for sym, settings in vals["pg_dataset"].items():
    ss = []
    for ops in settings:
        ss.append("    [" + ";\n     ".join("Mat " + " ".join(z(x) for row in m for x in row) for m in ops) + "]")
    ent.append(f'  ("{sym}", [\n' + ";\n".join(ss) + "])")
out.append(";\n".join(ent) + "].\n")
a, b = lines["pg_solvable_chain"]
out.append(f"(** pointgroup.py:{a}-{b} pg_solvable_chain: symbol -> settings -> ((symbol, setting) of the normal subgroup, generator). *)")
out.append("Definition pg_solvable_chain : list (string * list ((string * nat) * nat)) := [")
ent = []
for sym, settings in vals["pg_solvable_chain"].items():
    ss = [f'(("{s}", {i}), {g})' for ((s, i), g) in settings]
    ent.append(f'  ("{sym}", [' + "; ".join(ss) + "])")
out.append(";\n".join(ent) + "].")
sys.stdout.write("\n".join(out) + "\n")
