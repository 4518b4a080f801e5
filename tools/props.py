#!/usr/bin/env python3
"""Source of /verif/properties.jsonl (run: python3 tools/props.py)."""
import json, os
P = []
def prop(id, title, statement, quantifier, why, *anchors):
    P.append(dict(id=id, title=title, statement=statement, quantifier=quantifier,
                  why_tests_cant=why, anchors=list(anchors)))

B = "maxlike/maxlike_base.py"; M = "maxlike/maxlike.py"; T = "maxlike/tensor/tensor.py"
FB = "maxlike/func/func_base.py"; FO = "maxlike/func/func_op.py"; F = "maxlike/func/func.py"
FP = "maxlike/func/func_proba.py"; CO = "maxlike/func/copula.py"; SG = "maxlike/func/sigmoid.py"
MX = "maxlike/func/matrix.py"; TN = "maxlike/func/tennis.py"; SK = "maxlike/skellam.py"; PP = "maxlike/preprocessing.py"

exec(open(os.path.join(os.path.dirname(__file__), "props_data.py")).read())

ids = [p["id"] for p in P]
assert len(set(ids)) == len(ids)
with open(os.path.join(os.path.dirname(__file__), "..", "properties.jsonl"), "w") as f:
    for p in P:
        f.write(json.dumps(p) + "\n")
print(len(P), "properties")
