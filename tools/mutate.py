#!/usr/bin/env python3
"""Seeded-bug test of the theorems.

usage: mutate.py MUTANTS.jsonl [LOG.jsonl]

Each line of MUTANTS.jsonl is {"id", "file", "definition", "old", "new", "claim", "property"},
with an optional "target" for make when the whole tree depends on the file.
The edit is applied to a scratch copy of a built rocq/ tree, the tree is rebuilt
with make -k, and the lemmas whose proof breaks are collected.  Property theorems
are reported as failed when their proof uses, directly or not, such a lemma
(dependencies are read from the .glob files of the unmodified build)."""
import json, os, re, shutil, subprocess, sys, glob
BASE, WORK = "/tmp/mut/base", "/tmp/mut/work"
ROOT = os.path.dirname(os.path.dirname(os.path.abspath(__file__)))

def entries(path):
    """[(start, name)] of the definitions and proofs of a file, and its references."""
    ents, refs = [], []
    for line in open(path, errors="replace"):
        m = re.match(r"^(prf|def|thm|ind|constr|rec|proj|inst|not|var|sec|ax) (\d+):(\d+) (\S+) (\S+)", line)
        if m:
            if m.group(1) in ("prf", "def", "thm"): ents.append((int(m.group(2)), m.group(5)))
            continue
        m = re.match(r"^R(\d+):\d+ Verif\.(\w+) (\S+) (\S+) (\w+)", line)
        if m and m.group(5) in ("thm", "def", "prfax"): refs.append((int(m.group(1)), (m.group(2), m.group(4))))
    return sorted(ents), sorted(refs)

def dep_graph():
    g = {}
    for f in glob.glob(BASE + "/theories/*.glob"):
        mod = os.path.basename(f)[:-5]
        ents, refs = entries(f)
        bounds = [e[0] for e in ents] + [10**12]
        k = 0
        for pos, target in refs:
            while k + 1 < len(ents) and bounds[k + 1] <= pos: k += 1
            if ents and pos >= ents[0][0]: g.setdefault((mod, ents[k][1]), set()).add(target)
        for e in ents: g.setdefault((mod, e[1]), set())
    return g

def reaches(g, start, bad):
    seen, todo = set(), [start]
    while todo:
        n = todo.pop()
        if n in bad: return True
        if n in seen: continue
        seen.add(n); todo += list(g.get(n, ()))
    return False

def lemma_at(path, line):
    name = None
    for i, l in enumerate(open(path), 1):
        if i > line: break
        m = re.match(r"^\s*(?:Local )?(?:Lemma|Theorem|Corollary|Example|Definition|Fixpoint|Fact|Remark) (\w+)", l)
        if m: name = m.group(1)
    return name

def main():
    muts = [json.loads(l) for l in open(sys.argv[1]) if l.strip()]
    log = sys.argv[2] if len(sys.argv) > 2 else None
    g = dep_graph()
    claims = json.load(open(ROOT + "/MANIFEST.json"))["claims"]
    theorems = sorted({t for c in claims for t in c["theorems"]})
    where = {n[1]: n for n in g}
    for m in muts:
        shutil.rmtree(WORK, ignore_errors=True)
        shutil.copytree(BASE, WORK, symlinks=True, copy_function=shutil.copy2)
        path = WORK + "/theories/" + m["file"]
        src = open(path).read()
        if src.count(m["old"]) != 1:
            print(m["id"], "OLD TEXT FOUND", src.count(m["old"]), "TIMES"); continue
        open(path, "w").write(src.replace(m["old"], m["new"]))
        r = subprocess.run("make -k -j2 COQC='timeout 300 coqc' " + m.get("target", ""), shell=True, cwd=WORK, capture_output=True, text=True)
        out = r.stdout + r.stderr
        bad = {}
        for f, l in re.findall(r'File "\./?(theories/\w+\.v)", line (\d+), characters [^\n]*\n(?:Error|.*\n?Error)', out):
            bad[(os.path.basename(f)[:-2], lemma_at(WORK + "/" + f, int(l)))] = 1
        for f in re.findall(r"\[Makefile:\d+: (theories/\w+)\.vo\] Error 124", out):
            bad[(os.path.basename(f), "(timeout)")] = 1
        failed = [t for t in theorems if t in where and reaches(g, where[t], set(bad))]
        if any(b[1] == "(timeout)" or b[1] is None for b in bad):
            mods = {b[0] for b in bad if b[1] in (None, "(timeout)")}
            names = {n for n in g if n[0] in mods}
            failed = sorted(set(failed) | {t for t in theorems if t in where and reaches(g, where[t], names)})
        rec = {"id": m["id"], "definition": m["definition"], "file": m["file"], "edit": m["old"] + "  =>  " + m["new"],
               "claim": m["claim"], "property": m["property"], "broken_lemmas": sorted("%s.%s" % (a, b) for a, b in bad),
               "theorems_failed": failed, "theorems_tightened": []}
        print(m["id"], "rc", r.returncode, "lemmas", rec["broken_lemmas"], "theorems", len(failed), "property hit:",
              any(t.startswith(p) for p in m["property"].split() for t in failed), flush=True)
        if r.returncode != 0 and not bad: print(out[-1500:], flush=True)
        if log: open(log, "a").write(json.dumps(rec) + "\n")
main()
