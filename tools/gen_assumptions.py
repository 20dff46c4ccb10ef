#!/usr/bin/env python3
"""Asks Coq for the assumptions of every theorem of MANIFEST.json (build rocq/ first) and writes ASSUMPTIONS.md."""
import json, os, re, subprocess, tempfile
root = os.path.dirname(os.path.dirname(os.path.abspath(__file__)))
th = os.path.join(root, "rocq", "theories")
claims = json.load(open(os.path.join(root, "MANIFEST.json")))["claims"]
where = {}
for line in open(os.path.join(root, "rocq", "_CoqProject")):
    m = re.match(r"theories/(\w+)\.v", line)
    if m:
        for t in re.findall(r"^(?:Theorem|Lemma|Corollary)\s+(\w+)", open(os.path.join(th, m[1] + ".v")).read(), re.M):
            if m[1].endswith("Theorems") or t not in where:
                where[t] = m[1]
names = []
for c in claims:
    for t in c["theorems"]:
        if t not in names:
            names.append(t)
bymod = {}
for t in names:
    bymod.setdefault(where[t], []).append(t)
res = {}
for mod, ts in bymod.items():
    src = "From Verif Require %s.\n" % mod
    for t in ts:
        src += 'Goal True. idtac "@@%s". Abort.\nPrint Assumptions %s.%s.\n' % (t, mod, t)
    with tempfile.NamedTemporaryFile("w", suffix=".v", delete=False) as f:
        f.write(src)
    out = subprocess.run(["coqtop", "-q", "-Q", th, "Verif", "-batch", "-l", f.name], capture_output=True, text=True)
    cur = None
    for line in (out.stdout + "\n").splitlines():
        if line.startswith("@@"):
            cur = line[2:].strip(); res[cur] = []
        elif cur and "Closed under the global context" in line:
            pass
        elif cur:
            m = re.match(r"^([A-Za-z_][\w.']*)(\s*:.*)?$", line)
            if m and m[1] not in ("Axioms", "Section"):
                res[cur].append(m[1])
    os.unlink(f.name)
sets = {}
for t in names:
    sets.setdefault(tuple(sorted(set(res[t]))), []).append(t)
with open(os.path.join(root, "ASSUMPTIONS.md"), "w") as f:
    f.write("# Output of Print Assumptions per theorem\n\nGenerated by `tools/gen_assumptions.py` from the compiled files.\n")
    for k, ts in sorted(sets.items(), key=lambda p: (len(p[0]), p[0])):
        f.write("\n## %s\n\n" % (", ".join("`%s`" % a for a in k) if k else "No axioms (closed under the global context)"))
        f.write(" ".join("`%s`" % t for t in ts) + "\n")
    print({k: len(v) for k, v in sets.items()})
