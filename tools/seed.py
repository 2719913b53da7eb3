#!/usr/bin/env python3
"""Seeded-bug experiments.  For each mutant (JSON lines: file, old, new, definition,
edit, claim) copy /verif/rocq to a scratch directory, apply the edit, rebuild, and
report which property theorems can no longer be established: a lemma whose proof
fails is replaced by Admitted and the build goes on; a property theorem has failed
when its proof refers, directly or through other lemmas, to an admitted one.  Results are appended to
/verif/seeded/LOG.jsonl.   usage: seed.py mutants.jsonl [--dry]"""
import json, os, re, shutil, subprocess, sys
ROOT = os.environ.get("SNAP", "/verif/rocq")
SC = os.environ.get("SCRATCH", "/tmp/scratch")

def run(cmd, **k):
    return subprocess.run(cmd, shell=True, capture_output=True, text=True, **k)

def order(sc):
    fs = [l.strip() for l in open(sc + "/_CoqProject") if l.strip().endswith(".v")]
    r = run("coqdep -Q theories Verif " + " ".join(fs), cwd=sc)
    deps = {}
    for l in r.stdout.splitlines():
        m = re.match(r"(\S+)\.vo\s.*?:\s(.*)", l)
        if m:
            deps[m.group(1) + ".v"] = [d[:-1] for d in m.group(2).split() if d.endswith(".vo") and d.startswith("theories/")]
    out, seen = [], set()
    def go(f):
        if f in seen: return
        seen.add(f)
        for d in deps.get(f, []): go(d)
        out.append(f)
    for f in fs: go(f)
    return out, deps

STMT = re.compile(r"^(?:\s*)(?:Local |Global )?(Lemma|Theorem|Corollary|Example|Fact|Remark|Instance|Definition|Fixpoint)\s+(\w+)", re.M)

def admit_at(path, line):
    src = open(path).read()
    off = sum(len(x) for x in src.splitlines(True)[:line - 1])
    last = None
    for m in STMT.finditer(src):
        if m.start() <= off + 200 and src.count("\n", 0, m.start()) + 1 <= line: last = m
    if last is None: return None
    end = re.compile(r"\b(Qed|Defined)\.").search(src, last.start())
    pr = re.compile(r"\bProof\b[^.]*\.").search(src, last.start())
    if end is None or pr is None or pr.start() > end.start() or end.start() < off - 1: return None
    nxt = STMT.search(src, last.end())
    new = src[:pr.end()] + " Admitted." + src[end.end():]
    open(path, "w").write(new)
    return last.group(2)

def prop_theorems(sc):
    res = []
    for f in sorted(os.listdir(sc + "/theories")):
        if f.startswith("Props_") and f.endswith(".v"):
            for m in re.finditer(r"^Theorem (C\d\d\w*)", open(sc + "/theories/" + f).read(), re.M):
                res.append((f[:-2], m.group(1)))
    return res

def reach(sc, adm):
    """names whose proofs refer, directly or not, to a name in adm (read from the .glob files)"""
    users = {}
    for f in os.listdir(sc + "/theories"):
        if not f.endswith(".glob"): continue
        lib = "Verif." + f[:-5]
        objs, refs = [], []
        for l in open(sc + "/theories/" + f, errors="replace"):
            m = re.match(r"R(\d+):\d+ (\S+) (\S+) (\S+) (\w+)", l)
            if m:
                if m.group(2).startswith("Verif."): refs.append((int(m.group(1)), (m.group(2), m.group(4).split(".")[-1])))
                continue
            m = re.match(r"(prf|def|thm|inst|ind|rec|scheme|constr|proj) (\d+):\d+ (\S+) (\S+)", l)
            if m: objs.append((int(m.group(2)), (lib, m.group(4))))
        objs.sort()
        import bisect
        starts = [o for o, _ in objs]
        for off, r in refs:
            k = bisect.bisect_right(starts, off) - 1
            if k >= 0: users.setdefault(r, set()).add(objs[k][1])
    seen, todo = set(adm), list(adm)
    while todo:
        for u in users.get(todo.pop(), ()):
            if u not in seen: seen.add(u); todo.append(u)
    return seen

def experiment(mut):
    if os.path.exists(SC): shutil.rmtree(SC)
    run(f"cp -a {ROOT} {SC}")
    for f in os.listdir(SC + "/theories"):
        if f.startswith("Props_") and f.endswith(".v"):
            p = f"{SC}/theories/{f}"; st = os.stat(p)
            src = re.sub(r"^Print Assumptions.*$", "", open(p).read(), flags=re.M)
            open(p, "w").write(src); os.utime(p, (st.st_atime, st.st_mtime))
    edits = mut.get("edits") or [mut]
    for e in edits:
        p = f"{SC}/theories/{e['file']}"
        s = open(p).read()
        if s.count(e["old"]) < 1: return {"error": "pattern not found: " + e["old"]}
        s = s.replace(e["old"], e["new"], e.get("count", 1))
        open(p, "w").write(s)
    files, deps = order(SC)
    dirty = {"theories/" + e["file"] for e in edits}
    admitted, broken, adm = [], [], set()
    for f in files:
        if f in dirty or any(d in dirty for d in deps.get(f, [])):
            dirty.add(f)
            if any(d[:-2] in broken for d in deps.get(f, [])): broken.append(f[:-2]); continue
            for _ in range(60):
                r = run(f"timeout 900 coqc -Q theories Verif {f}", cwd=SC)
                if r.returncode == 0: break
                err = r.stderr
                m = re.findall(r'File "[^"]*", line (\d+), characters [^\n]*\n(?:Error|[^\n]*Error)', err)
                if not m: m = re.findall(r'line (\d+), characters', err)[-1:]
                nm = admit_at(f"{SC}/{f}", int(m[-1])) if m else None
                if nm is None:
                    broken.append(f[:-2]); print("   broken", f, err[-400:]); break
                admitted.append(nm); adm.add(("Verif." + os.path.basename(f)[:-2], nm))
    ths = prop_theorems(SC)
    failed = [t + " (file not built)" for f, t in ths if "theories/" + f in broken]
    if admitted:
        bad = reach(SC, adm)
        failed += [t for f, t in ths if ("Verif." + f, t) in bad]
    return {"failed_lemmas": admitted, "theorems_failed": sorted(set(failed))}

if __name__ == "__main__":
    dry = "--dry" in sys.argv
    for line in open(sys.argv[1]):
        if not line.strip(): continue
        mut = json.loads(line)
        r = experiment(mut)
        rec = {"definition": mut["definition"], "edit": mut["edit"], "claim": mut["claim"], "failed_lemmas": r.get("failed_lemmas"),
               "theorems_failed": r.get("theorems_failed"), "theorems_tightened": mut.get("tightened", [])}
        if "error" in r: rec["error"] = r["error"]
        print(json.dumps(rec)); sys.stdout.flush()
        if not dry and "error" not in r:
            open("/verif/seeded/LOG.jsonl", "a").write(json.dumps(rec) + "\n")
