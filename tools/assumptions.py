#!/usr/bin/env python3
"""Run Print Assumptions on every theorem named in MANIFEST.json (needs a built rocq/) and write ASSUMPTIONS.md."""
import json, re, subprocess, os, glob, collections
os.chdir("/verif/rocq")
where = {}
for f in sorted(glob.glob("theories/P_*.v") + glob.glob("theories/L_*.v")):
    for m in re.finditer(r"^\s*(?:Theorem|Lemma)\s+([A-Za-z0-9_']+)", open(f).read(), re.M):
        where.setdefault(m.group(1), os.path.basename(f)[:-2])
claims = json.load(open("../MANIFEST.json"))["claims"]
names = [(c["property"], t) for c in claims for t in c["theorems"]]
mods = sorted({where[t] for _, t in names})
src = "".join("From Verif Require %s.\n" % m for m in mods)
for p, t in names:
    src += 'Goal True. idtac "@@ %s %s". Abort.\nPrint Assumptions Verif.%s.%s.\n' % (p, t, where[t], t)
open("/tmp/asm/A.v", "w").write(src)
out = subprocess.run(["coqc", "-Q", "theories", "Verif", "/tmp/asm/A.v"], capture_output=True, text=True).stdout
sets = collections.OrderedDict()
for chunk in out.split("@@ ")[1:]:
    head, _, body = chunk.partition("\n")
    p, t = head.split()
    ax = tuple(sorted(set(re.findall(r"^([A-Za-z_][\w.']*)(?=\s*:|\s*$)", body, re.M)) - {"Axioms", "Closed"}))
    assert ("Closed under the global context" in body) == (not ax), (t, body)
    sets.setdefault(ax, []).append(t)
assert sum(map(len, sets.values())) == len(names)
axioms = sorted({a for s in sets for a in s})
with open("/verif/ASSUMPTIONS.md", "w") as f:
    f.write("# What `Print Assumptions` lists\n\nGenerated by `tools/assumptions.py` from the %d theorems of MANIFEST.json.\nAll the axioms are those of Coq's standard library:\n\n" % len(names))
    for i, a in enumerate(axioms): f.write("* A%d `%s`\n" % (i + 1, a))
    f.write("\n| axioms | number of theorems | theorems |\n|---|---|---|\n")
    for s, ts in sorted(sets.items(), key=lambda x: (len(x[0]), x[0])):
        f.write("| %s | %d | %s |\n" % (" ".join("A%d" % (axioms.index(a) + 1) for a in s) or "none (closed under the global context)", len(ts), " ".join(ts)))
print(axioms)
for s, ts in sets.items(): print(len(ts), len(s))
