#!/usr/bin/env python3
"""Test the theorems against wrong programs.

usage: mutate.py MUTANTS.json [--log]

Each entry of MUTANTS.json: {"file": "Model_X.v", "def": "...", "old": "...", "new": "...",
"claim": "...", "edit": "...", "targets": ["Properties_X"]}.  The edit is applied in a scratch copy of rocq/.  Every proof that
no longer goes through is replaced by Admitted in the scratch copy, so that all dependent files
are still checked; afterwards Print Assumptions tells which property theorems are lost."""
import json, os, re, shutil, subprocess, sys
SRC = "/verif/rocq"
SCR = "/root/mut/rocq" + (os.environ.get("W") or "")
FLAGS = ["-Q", "theories", "Verif", "-w", "none"]
HEAD = re.compile(r"^\s*(?:Global |Local |#\[[^\]]*\] ?)*(Lemma|Theorem|Example|Corollary|Fact|Remark|Proposition|Instance|Definition|Fixpoint)\s+([A-Za-z0-9_']+)", re.M)

def run(cmd, t=900):
    try:
        p = subprocess.run(cmd, cwd=SCR, capture_output=True, text=True, timeout=t)
        return p.returncode, p.stdout + p.stderr
    except subprocess.TimeoutExpired:
        return 1, "TIMEOUT"

def setup():
    if os.path.exists(SCR):
        shutil.rmtree(SCR)
    shutil.copytree(SRC, SCR)
    rc, out = run(["bash", "-c", "coq_makefile -f _CoqProject -o Makefile >/dev/null && make -j4 2>&1 | tail -3"], 3600)
    print(out[-300:])

def deps():
    rc, out = run(["bash", "-c", "coqdep -f _CoqProject 2>/dev/null"])
    d = {}
    for l in out.splitlines():
        m = re.match(r"theories/(\w+)\.vo .*?: (.*)", l)
        if m:
            d[m.group(1)] = set(re.findall(r"theories/(\w+)\.vo\b", m.group(2)))
    return d

def needed(d, targets):
    res = set()
    def v(f):
        if f not in res:
            res.add(f)
            for g in d.get(f, ()): v(g)
    for t in targets: v(t)
    return res

def order(d, start):
    aff = {start}
    ch = True
    while ch:
        ch = False
        for f, ds in d.items():
            if f not in aff and ds & aff:
                aff.add(f); ch = True
    res = []
    def visit(f):
        if f in res: return
        for g in sorted(d[f] & aff): visit(g)
        res.append(f)
    for f in sorted(aff): visit(f)
    return res

def admit(path, line):
    s = open(path).read()
    lines = s.split("\n")
    pos = sum(len(x) + 1 for x in lines[:line - 1])
    end_line = pos + len(lines[line - 1])
    last = None
    for m in HEAD.finditer(s):
        if m.start() <= end_line: last = m
        else: break
    if last is None: return None
    name = last.group(2)
    q = re.compile(r"\b(Qed|Defined)\.").search(s, last.end())
    p = re.compile(r"\bProof\b[^.]*\.").search(s, last.end())
    if not p or not q or p.start() > q.start(): return None
    nxt = HEAD.search(s, last.end())
    # an error in the statement itself cannot be admitted
    if pos + 0 < p.start() and end_line < p.start(): return None
    open(path, "w").write(s[:p.start()] + "Admitted." + s[q.end():])
    return name

def one(m, d):
    f = m["file"]
    src = os.path.join(SRC, "theories", f)
    s = open(src).read()
    if s.count(m["old"]) != 1 and not m.get("all"):
        return {"error": "old string occurs %d times" % s.count(m["old"])}
    base = f[:-2]
    todo = order(d, base)
    if m.get("targets"):
        nd = needed(d, m["targets"])
        todo = [g for g in todo if g in nd]
    saved = []
    try:
        for g in todo:
            for ext in (".v", ".vo", ".vos", ".vok", ".glob"):
                p = os.path.join(SCR, "theories", g + ext)
                if os.path.exists(p):
                    shutil.copy2(p, p + ".bak"); saved.append(p)
        open(os.path.join(SCR, "theories", f), "w").write(s.replace(m["old"], m["new"]))
        failed = []
        for g in todo:
            path = os.path.join(SCR, "theories", g + ".v")
            for _ in range(80):
                rc, out = run(["timeout", "600", "coqc"] + FLAGS + ["theories/" + g + ".v"])
                if rc == 0: break
                mm = re.search(r'line (\d+), characters', out)
                if not mm: return {"error": "%s: %s" % (g, out[-300:])}
                n = admit(path, int(mm.group(1)))
                if n is None: return {"error": "%s: %s" % (g, out[-400:])}
                failed.append(g + "." + n)
        lost = {}
        for g in todo:
            if not g.startswith("Properties"): continue
            names = re.findall(r"^\s*(?:Theorem|Lemma|Corollary)\s+(C\d\d\w*)", open(os.path.join(SCR, "theories", g + ".v")).read(), re.M)
            t = "From Verif Require Import %s.\n" % g
            for n in names:
                t += 'Goal True. idtac "@@%s". Abort.\nPrint Assumptions %s.\n' % (n, n)
            open(os.path.join(SCR, "probe.v"), "w").write(t)
            rc, out = run(["coqc"] + FLAGS + ["probe.v"])
            for part in out.split("@@")[1:]:
                n, rest = part.split("\n", 1)
                ax = [a for a in re.findall(r"^([A-Za-z0-9_'.]+)\s*:", rest, re.M)]
                bad = [a for a in ax if a.split(".")[-1] in {x.split(".")[-1] for x in failed}]
                if bad: lost[n] = bad
        return {"lost": lost, "failed": failed}
    finally:
        for p in saved:
            shutil.move(p + ".bak", p)

if __name__ == "__main__":
    muts = json.load(open(sys.argv[1]))
    setup()
    d = deps()
    res = []
    w, n = int(os.environ.get("W") or 0), int(os.environ.get("NW") or 1)
    done = set()
    if "--log" in sys.argv:
        for l in open("/verif/seeded/LOG.jsonl"):
            e = json.loads(l); done.add((e["definition"], e["edit"], e["claim"]))
    for m in muts[w::n]:
        if (m["file"] + ":" + m["def"], m.get("edit") or (m["old"] + " -> " + m["new"]), m["claim"]) in done: continue
        r = one(m, d)
        res.append(r)
        print("##", m["def"], "|", m.get("edit", ""), "|", m["claim"])
        print("   ", json.dumps(r)[:1500], flush=True)
        if "--log" in sys.argv and "error" not in r:
            with open("/verif/seeded/LOG.jsonl", "a") as fh:
                fh.write(json.dumps({"definition": m["file"] + ":" + m["def"], "edit": m.get("edit") or (m["old"] + " -> " + m["new"]),
                                     "claim": m["claim"], "failed": sorted(r["lost"]), "first_failures": r["failed"][:6],
                                     "tightened": m.get("tightened", [])}) + "\n")
