#!/usr/bin/env python3
"""Mutation testing of the model (run outside /verif).

usage: mutate.py MUTFILE.py [id ...]
MUTFILE defines MUTS = [dict(id, file, old, new, definition, edit, claim, tightened=[])].
For each mutant: copy rocq/ to a scratch dir (compiled files kept), apply the edit, rebuild.
Every proof that fails is replaced by Admitted so that the build goes on; at the end
Print Assumptions in the Props files tells which theorems rested on a failed proof.
Appends one JSON line per mutant to seeded/LOG.jsonl."""
import sys, os, re, json, shutil, subprocess, tempfile
V = "/verif"
def names_of_prints(path):
    return re.findall(r"Print Assumptions (\w+)\.", open(path).read())
def make(d, targets=()):
    r = subprocess.run(["timeout", "1500", "make", "-k", "-j3", *targets], cwd=d, capture_output=True, text=True)
    return r.returncode, r.stdout + r.stderr
def admit_at(path, line, admitted):
    s = open(path).read(); lines = s.split("\n")
    # enclosing statement: scan back for Lemma/Theorem/...
    i = line - 1
    while i >= 0 and not re.match(r"\s*(Local |Global |#\[.*\] )*(Lemma|Theorem|Corollary|Example|Fact|Remark|Instance)\b", lines[i]):
        if re.match(r"\s*(Definition|Fixpoint|Inductive|Record|Notation)\b", lines[i]): return False
        i -= 1
    if i < 0: return False
    name = re.search(r"(Lemma|Theorem|Corollary|Example|Fact|Remark|Instance)\s+(\w+)", lines[i]).group(2)
    text = "\n".join(lines[i:])
    m = re.search(r"\bProof\b[^.]*\.", text)
    q = re.search(r"\b(Qed|Defined)\.", text)
    if not m or not q or q.start() < m.start(): return False
    text = text[:m.start()] + "Proof. Admitted." + text[q.end():]
    open(path, "w").write("\n".join(lines[:i]) + ("\n" if i else "") + text)
    admitted.append(os.path.basename(path) + ":" + name)
    return True
def run(mu, log):
    d = tempfile.mkdtemp(prefix="mut_", dir="/tmp")
    shutil.copytree(SRC, d + "/rocq"); r = d + "/rocq"
    subprocess.run(["coq_makefile", "-f", "_CoqProject", "-o", "Makefile"], cwd=r, capture_output=True)
    p = f"{r}/theories/{mu['file']}"
    s = open(p).read()
    n = s.count(mu["old"])
    if n != mu.get("count", 1):
        print(mu["id"], "EDIT DOES NOT APPLY", n); shutil.rmtree(d); return
    open(p, "w").write(s.replace(mu["old"], mu["new"]))
    admitted = []; broken = None
    for _ in range(120):
        rc, out = make(r, mu.get("targets", ()))
        if rc == 0: break
        m = re.search(r'File "\./(theories/\w+\.v)", line (\d+)', out.split("Error")[0] if False else out)
        errs = [(a, int(b)) for a, b in re.findall(r'File "\./(theories/\w+\.v)", line (\d+), characters[^\n]*\nError', out)]
        if not errs: broken = out[-800:]; break
        if not all(admit_at(f"{r}/{a}", b, admitted) for a, b in dict(reversed(errs)).items()):
            broken = f"{errs[0]}: " + out[-600:]; break
    failed = []
    if broken is None:
        for f in sorted(os.listdir(r + "/theories")):
            vo = f"theories/{f}o"
            if f.startswith("Props_") and f.endswith(".v") and os.path.exists(f"{r}/{vo}") and (not mu.get("targets") or vo in mu["targets"]) and os.path.getmtime(f"{r}/{vo}") > os.path.getmtime(f"{SRC}/{vo}"):
                c = subprocess.run(["coqc", "-Q", "theories", "Verif", "theories/" + f], cwd=r, capture_output=True, text=True)
                names = names_of_prints(f"{r}/theories/{f}")
                chunks = re.split(r"(?=^Closed under the global context|^Axioms:)", c.stdout, flags=re.M)[1:]
                adm = set(a.split(":")[1] for a in admitted)
                direct = set(a.split(":")[1] for a in admitted if a.startswith(f[:-2] + ".v:"))
                for nme, ch in zip(names, chunks):
                    if nme in direct or any(re.search(rf"(^|\.|\s){re.escape(a)}\s*:", ch, re.M) for a in adm):
                        failed.append(nme)
                exs = [a.split(":")[1] for a in admitted if a.startswith(f)]
                failed += [e for e in exs if e not in failed]
    print(mu["id"], "->", "BROKEN " + broken if broken else (failed or "SURVIVED"), "| proofs:", admitted[:8])
    shutil.rmtree(d)
    if log and not broken:
        rec = dict(id=mu["id"], definition=mu["definition"], edit=mu["edit"], claim_broken=mu["claim"],
                   theorems_failed=failed, proofs_failed=admitted[:12], theorems_tightened=mu.get("tightened", []))
        if mu.get("note"): rec["note"] = mu["note"]
        open(V + "/seeded/LOG.jsonl", "a").write(json.dumps(rec) + "\n")
if __name__ == "__main__":
    # snapshot of the last commit, built once, so that edits in /verif meanwhile do not matter
    SRC = tempfile.mkdtemp(prefix="mutsrc_", dir="/tmp") + "/rocq"
    shutil.copytree(V + "/rocq", SRC)
    subprocess.run(["bash", "-c", f"cd {V} && git archive HEAD rocq | tar x -C {os.path.dirname(SRC)}; cd {SRC}; git -C {V} ls-files rocq/theories | sed 's,.*/,,' > ../keep; for f in theories/*.v; do grep -qx $(basename $f) ../keep || rm -f ${{f%.v}}.*; done; for f in theories/*.v; do cmp -s $f {V}/rocq/$f && touch -r {V}/rocq/$f $f; done; coq_makefile -f _CoqProject -o Makefile; make -j4"], capture_output=True)
    ns = {}; exec(open(sys.argv[1]).read(), ns)
    want = [a for a in sys.argv[2:] if not a.startswith("-")]
    for mu in ns["MUTS"]:
        if not want or mu["id"] in want: run(mu, "--nolog" not in sys.argv)
    shutil.rmtree(os.path.dirname(SRC))
