#!/usr/bin/env python3
"""Writes MANIFEST.json from tools/manifest_data.py, checking the theorem names exist."""
import json, re, glob, os
V="/verif"
ns={}; exec(open(V+"/tools/manifest_data.py").read(), ns)
have=set()
for f in glob.glob(V+"/rocq/theories/Props_*.v"):
    have|=set(re.findall(r"^Theorem (\w+)", open(f).read(), re.M))
props=[json.loads(l)["id"] for l in open(V+"/properties.jsonl")]
claims=[]; used=set()
for pid in props:
    if pid not in ns["C"]: print("no claim for", pid); continue
    st,note=ns["C"][pid]
    ths=sorted(t for t in have if t.startswith(pid+"_"))
    ths+= [t for t in ns.get("EXTRA",{}).get(pid,[])]
    for t in ths: assert t in have,t
    used|=set(ths)
    if st!="not_applicable": assert ths,pid
    claims.append(dict(property=pid,status=st,theorems=ths,note=note))
print("unused theorems:", sorted(have-used)); print(len(claims),"claims",len(have),"theorems")
json.dump(dict(claims=claims),open(V+"/MANIFEST.json","w"),indent=1)
