#!/bin/sh
# Writes ASSUMPTIONS.md: the output of Print Assumptions for every theorem named in MANIFEST.json.
# Needs a finished build in rocq/.
cd "$(dirname "$0")/.." || exit 1
python3 - <<'P'
import json, re, subprocess, glob, os, tempfile
m = json.load(open("MANIFEST.json"))
names = []
for c in m["claims"]:
    for n in c["theorems"]:
        if n not in names: names.append(n)
where = {}
for f in glob.glob("rocq/theories/*.v"):
    mod = os.path.basename(f)[:-2]
    for n in re.findall(r"^(?:Theorem|Lemma|Corollary) (\w+)", open(f).read(), re.M): where[n] = mod
mods = sorted(set(where[n] for n in names))
src = "From Coq Require Import String.\n" + "".join("From Verif Require %s.\n" % x for x in mods)
for n in names: src += 'Eval compute in "@@%s"%%string.\nPrint Assumptions %s.%s.\n' % (n, where[n], n)
d = tempfile.mkdtemp(); open(d + "/a.v", "w").write(src)
out = subprocess.run(["coqc", "-Q", "rocq/theories", "Verif", d + "/a.v"], capture_output=True, text=True).stdout
res = {}
for part in out.split('= "@@')[1:]:
    n = part[:part.index('"')]
    body = part[part.index("string", part.index('"')) + 6:]
    res[n] = ["(closed under the global context)"] if "Closed under the global context" in body else sorted(set(re.findall(r"^(\w[\w.]*)(?= *:|\s*\n)", body, re.M)) - {"Axioms"})
w = open("ASSUMPTIONS.md", "w")
w.write("# Print Assumptions per theorem\n\nGenerated by tools/assumptions.sh.\n\n| Theorem | File | Axioms |\n|---|---|---|\n")
for n in names: w.write("| %s | %s.v | %s |\n" % (n, where[n], ", ".join(res.get(n, ["?"]))))
print(len(names), "theorems", set(a for r in res.values() for a in r))
P
