#!/usr/bin/env python3
"""Print Assumptions for every theorem of the manifest; rewrites the table between the markers of DESIGN.md.
Needs a finished build in rocq/.  With --new only theorems that are not in the table yet are looked at."""
import json, re, subprocess, os, collections, sys
ROOT = os.path.dirname(os.path.dirname(os.path.abspath(__file__)))
names = []
for c in json.load(open(f"{ROOT}/MANIFEST.json"))["claims"]:
    names += c["theorems"]
p = f"{ROOT}/DESIGN.md"
a, b = "<!-- axioms:begin -->\n", "<!-- axioms:end -->"
groups = collections.OrderedDict()
if "--new" in sys.argv:
    s = open(p).read()
    for head, row in re.findall(r"^\*\*(.*)\*\* \(\d+ theorems\):\n(.*)\n", s[s.index(a):s.index(b)], re.M):
        ax = () if head.startswith("Closed") else tuple(re.findall(r"`([^`]+)`", head))
        groups[ax] = [n for n in re.findall(r"`([^`]+)`", row) if n in names]
    old = {n for ns in groups.values() for n in ns}
    names = [n for n in names if n not in old]
where = {}
import glob
for f in sorted(glob.glob(f"{ROOT}/rocq/theories/*.v")):
    for n in re.findall(r"^\s*(?:Theorem|Lemma|Corollary|Proposition|Fact|Remark)\s+([\w']+)", open(f).read(), re.M):
        where.setdefault(n, os.path.basename(f)[:-2])
mods = sorted({where[n] for n in names})
src = "".join(f"From Verif Require {m}.\n" for m in mods)
for n in names:
    src += f'Goal True. idtac "@@ {n}". Abort.\nPrint Assumptions Verif.{where[n]}.{n}.\n'
open("/tmp/ax_all.v", "w").write(src)
out = subprocess.run(["coqc", "-Q", f"{ROOT}/rocq/theories", "Verif", "/tmp/ax_all.v"], capture_output=True, text=True)
assert out.returncode == 0, out.stderr[-2000:]
for part in out.stdout.split("@@ ")[1:]:
    n, rest = part.split("\n", 1)
    ax = () if "Closed under the global context" in rest else tuple(sorted(set(re.findall(r"^([\w.']+)\s*:", rest, re.M)) | set(re.findall(r"^([\w.']+)$", rest, re.M))))
    ax = tuple(a for a in ax if a != "Axioms")
    groups.setdefault(ax, []).append(n.strip())
txt = ""
for ax, ns in sorted(groups.items(), key=lambda p: len(p[0])):
    txt += ("**Closed under the global context (no axioms)**" if not ax else "**" + ", ".join(f"`{a}`" for a in ax) + "**") + f" ({len(ns)} theorems):\n"
    txt += ", ".join(f"`{n}`" for n in ns) + "\n\n"
s = open(p).read()
i, j = s.index(a) + len(a), s.index(b)
open(p, "w").write(s[:i] + txt + s[j:])
print({k: len(v) for k, v in groups.items()})
