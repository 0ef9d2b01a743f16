#!/usr/bin/env python3
"""Mutation testing of the theorems (scratch copies only).

usage: mutate.py BASE SUGGEST MUTATIONS.json OUT.jsonl [-j N]

BASE: a built copy of /verif/rocq.  SUGGEST: output of compiling all files with 'Set Suggest Proof Using'.
For each mutation {file, old, new, def, edit, claim, expect:[theorem or property ids]}: copy the dependent part of BASE,
apply the edit, recompile everything that depends on the file.  A proof that no longer goes through is replaced by a
cheat (an axiom of the scratch copy), so that what follows is still checked.  At the end, the theorems that depend on a
cheat are those that failed.
"""
import json, os, re, subprocess, sys, shutil, concurrent.futures as cf

base, sugf, mutf, outf = sys.argv[1:5]
jobs = int(sys.argv[6]) if len(sys.argv) > 6 else 3
proj = [l.strip() for l in open(base + "/_CoqProject") if l.strip().endswith(".v")]
mods = [os.path.basename(p)[:-2] for p in proj]
src = {m: open(f"{base}/theories/{m}.v").read() for m in mods}
deps = {}
for m in mods:
    d = set()
    for x in re.findall(r"From Verif Require (?:Import|Export)?([^.]*)\.", src[m]):
        d |= set(x.split())
    deps[m] = {x for x in d if x in src}
order = []
def visit(m):
    if m in order: return
    for d in deps[m]: visit(d)
    order.append(m)
for m in mods: visit(m)
def rdeps(m0):
    r = {m0}
    for m in order:
        if deps[m] & r: r.add(m)
    return [m for m in order if m in r]
using = {}
cur = None; name = None
for l in open(sugf):
    if l.startswith("== "): cur = l[3:].strip()
    mm = re.match(r"The proof of (\S+) should", l)
    if mm: name = mm.group(1); continue
    mm = re.match(r"Proof using(.*)\.\s*$", l)
    if mm and name and (cur, name) not in using:
        using[(cur, name)] = mm.group(1).strip()

# families of modules to rebuild after an edit of a family's model (default: the family itself)
SCOPE = {"Opt": ["Opt", "OptVp", "OptMv"], "Int": ["Int", "Pow", "Addr", "Bytes"], "Str": ["Str", "Mime", "Bytes"], "Stream": ["Stream", "View"],
         "Mime": ["Mime", "Registry"], "Port": ["Port", "Registry", "Regexp"], "FiberPool": ["FiberPool", "Fiber"], "Addr": ["Addr", "Port"], "Sink": ["Sink", "SinkLife"]}

HEAD = re.compile(r"^\s*(?:Local |Global |#\[[a-z]+\] )?(?:Lemma|Theorem|Example|Corollary|Fact|Remark|Instance|Definition|Fixpoint|Let|Program Definition)\s+([A-Za-z0-9_']+)", re.M)

def run(idx, mu):
    m0 = mu["file"][:-2]
    d = f"/tmp/mut/run{idx}"
    shutil.rmtree(d, ignore_errors=True); os.makedirs(d)
    res = dict(mu); cheats = []; stmt = []
    fam = re.sub(r"(Model|Spec)\d*$", "", m0)
    scope = SCOPE.get(fam, [fam]) + mu.get("scope", [])
    todo = [m for m in rdeps(m0) if m == m0 or any(re.match(x + r"(Model|Spec|Proofs|Props)\d*$", m) for x in scope)]
    for m in mods:
        os.symlink(f"{base}/theories/{m}.v", f"{d}/{m}.v")
        if m not in todo: os.symlink(f"{base}/theories/{m}.vo", f"{d}/{m}.vo")
    open(f"{d}/MutCheat.v", "w").write("Axiom mut_cheat : forall A : Prop, A.\n")
    subprocess.run(["coqc", "-Q", ".", "Verif", "MutCheat.v"], cwd=d, capture_output=True)
    broken = set()
    for m in todo:
        if deps[m] & broken: broken.add(m); continue
        s = src[m]
        if m == m0:
            if s.count(mu["old"]) != mu.get("count", 1):
                res["error"] = f"pattern occurs {s.count(mu['old'])} times"; shutil.rmtree(d); return res
            s = s.replace(mu["old"], mu["new"])
        s = "From Verif Require Import MutCheat. " + s
        tries = 0
        while True:
            os.unlink(f"{d}/{m}.v") if os.path.lexists(f"{d}/{m}.v") else None
            open(f"{d}/{m}.v", "w").write(s)
            try:
                p = subprocess.run(["coqc", "-Q", ".", "Verif", f"{m}.v"], cwd=d, capture_output=True, text=True, timeout=900)
                rc, err = p.returncode, p.stderr + p.stdout
            except subprocess.TimeoutExpired:
                rc, err = 1, "timeout"
            if rc == 0: break
            tries += 1
            mm = re.findall(r'File "[^"]*", line (\d+), characters (\d+)-(\d+)', err)
            if not mm or tries > 60:
                broken.add(m); stmt.append(f"{m}: {err[-200:]}"); break
            ln, c1, _ = map(int, mm[-1])
            lines = s.split("\n")
            off = sum(len(x.encode()) + 1 for x in lines[:ln - 1]) + c1
            off = len(s.encode()[:off].decode(errors="ignore"))
            pr = [x for x in re.finditer(r"\bProof\b[^.]*\.", s) if x.start() <= off]
            hd = [x for x in HEAD.finditer(s) if x.start() <= off]
            if not hd: broken.add(m); stmt.append(f"{m}: {err[-300:]}"); break
            if not pr or pr[-1].start() < hd[-1].start():
                # statement (or definition) does not typecheck any more
                broken.add(m); stmt.append(f"{m}.{hd[-1].group(1)}: {err[-300:]}"); break
            p0 = pr[-1]
            q = re.compile(r"\b(Qed|Defined)\.").search(s, p0.end())
            nm = hd[-1].group(1)
            u = using.get((m, nm))
            s = s[:p0.start()] + (f"Proof using {u}." if u is not None and u != "" else "Proof.") + " exact (mut_cheat _). Qed." + s[q.end():]
            cheats.append(f"{m}.{nm}")
    # which theorems depend on a cheat
    failed = []; okc = []; unknown = []
    for m in todo:
        names = re.findall(r"^Theorem (C\d\d_\w+)", src[m], re.M)
        if not names: continue
        if m in broken: unknown += names; continue
        q = f"From Verif Require Import {m}.\n" + "".join(f"Print Assumptions {n}.\n" for n in names)
        open(f"{d}/Q.v", "w").write(q)
        p = subprocess.run(["coqc", "-Q", ".", "Verif", "Q.v"], cwd=d, capture_output=True, text=True)
        # split output per theorem
        parts = re.split(r"(?=Closed under the global context|Axioms:|Section Variables)", p.stdout)[1:]
        if len(parts) != len(names): unknown += names; continue
        for n, t in zip(names, parts): (failed if "mut_cheat" in t else okc).append(n)
    res.update(cheats=cheats, failed=failed, survived=okc, unbuilt=unknown, stmt=stmt)
    shutil.rmtree(d)
    return res

muts = json.load(open(mutf))
done = 0
with cf.ThreadPoolExecutor(jobs) as ex, open(outf, "a") as out:
    futs = {ex.submit(run, i, m): m for i, m in enumerate(muts)}
    for f in cf.as_completed(futs):
        r = f.result(); done += 1
        out.write(json.dumps(r) + "\n"); out.flush()
        exp = r.get("expect", [])
        miss = [e for e in exp if not any(t.startswith(e) for t in r.get("failed", []) + r.get("unbuilt", []))]
        print(f"[{done}/{len(muts)}] {r['def']}: {r['edit'][:60]} | failed {len(r.get('failed', []))} unbuilt {len(r.get('unbuilt', []))} | MISSED {miss} {r.get('error', '')}", flush=True)
