"""Test the theorems against wrong programs, in a scratch copy outside /verif.

usage: seed.py MUTANTS.json OUT.jsonl [jobs]
MUTANTS.json: [{"id","file","definition","old","new","breaks":["C02",...],"why"}]
For every mutant: copy rocq/, replace `old` by `new` in the model file, recompile
every file in order.  A proof that no longer goes through is cut (in the scratch
copy only) so that the rest can be checked, and at the end Print Assumptions tells
which property theorems still have a complete proof.
"""
import json, os, re, shutil, subprocess, sys
from concurrent.futures import ThreadPoolExecutor
ROCQ = os.environ.get("ROCQ", "/verif/rocq")
CUT = "Admit" + "ted."
WARN = "-notation-overridden,-ambiguous-paths,-deprecated,-projection-no-head-constant,-redundant-canonical-projection"
files = [l.strip()[len("theories/"):-2] for l in open(f"{ROCQ}/_CoqProject") if l.strip().endswith(".v")]
STMT = re.compile(r"^\s*(?:Local\s+|Global\s+|#\[[^\]]*\]\s*)*(Lemma|Theorem|Corollary|Example|Fact|Remark|Let|Definition|Proposition|Fixpoint)\s+([A-Za-z0-9_']+)", re.M)
deps = {}
for f in files:
    t = open(f"{ROCQ}/theories/{f}.v").read()
    d = set()
    for blk in re.findall(r"From Verif Require (?:Import|Export) ([^.]*)\.", t): d |= set(blk.split())
    deps[f] = d
def affected(f):
    a = {f}
    for g in files:
        if deps[g] & a: a.add(g)
    return a

def compile_(d, f):
    try:
        r = subprocess.run(["coqc", "-w", WARN, "-set", "Default Timeout=40", "-Q", "theories", "Verif", f"theories/{f}.v"],
                           cwd=d, capture_output=True, text=True, timeout=1500)
        return r.returncode, r.stdout + r.stderr
    except subprocess.TimeoutExpired:
        return 99, "TIMEOUT"

def cut(d, f, line):
    """replace the proof around `line` by a cut; returns the name of the statement"""
    p = f"{d}/theories/{f}.v"; t = open(p).read(); L = t.split("\n")
    pos = sum(len(x) + 1 for x in L[:line - 1]) + len(L[line - 1])
    ms = [m for m in STMT.finditer(t) if m.start() <= pos]
    if not ms: return None
    m = ms[-1]
    end = re.compile(r"\b(Qed|Defined)\.").search(t, m.start())
    pr = t.find("Proof", m.start())
    if not end: return None
    if pr < 0 or pr > end.start(): return None
    if m.group(1) in ("Definition", "Fixpoint"): return None
    # statement itself broken?
    stmt_end = pr
    if pos < stmt_end: return None
    head = t[m.start():stmt_end]
    if m.group(1) == "Let": head = re.sub(r"^(\s*)Let", r"\1Lemma", head, 1)
    t = t[:m.start()] + head + CUT + t[end.end():]
    open(p, "w").write(t); return m.group(2)

def drop(d, f, line):
    """statement no longer type-checks: remove the whole item"""
    p = f"{d}/theories/{f}.v"; t = open(p).read(); L = t.split("\n")
    pos = sum(len(x) + 1 for x in L[:line - 1]) + len(L[line - 1])
    ms = [m for m in STMT.finditer(t) if m.start() <= pos]
    if not ms: return None
    m = ms[-1]
    end = re.compile(r"\b(Qed|Defined|" + CUT[:-1] + r")\.").search(t, m.start())
    if not end: return None
    open(p, "w").write(t[:m.start()] + t[end.end():]); return m.group(2)

def run(mu):
    d = f"/tmp/seed/{mu['id']}"; shutil.rmtree(d, ignore_errors=True); os.makedirs("/tmp/seed", exist_ok=True)
    shutil.copytree(ROCQ, d)
    p = f"{d}/theories/{mu['file']}.v"; t = open(p).read()
    if t.count(mu["old"]) != 1: return dict(mu, error=f"old occurs {t.count(mu['old'])} times")
    open(p, "w").write(t.replace(mu["old"], mu["new"]))
    aff = affected(mu["file"]); failed = []; notes = []
    for f in files:
        if f not in aff: continue
        tries = 0
        while True:
            rc, out = compile_(d, f)
            if rc == 0: break
            mm = re.findall(r'File "[^"]*", line (\d+)', out); tries += 1
            if not mm or tries > 60: notes.append(f"{f}: gave up: {out[-300:]}"); break
            line = int(mm[-1]); n = cut(d, f, line)
            if n is None:
                n = drop(d, f, line)
                if n is None: notes.append(f"{f}:{line}: {out[-300:]}"); break
                notes.append(f"{f}.{n} dropped: {out[-200:]}")
            failed.append(f"{f}.{n}")
        if notes and ("gave up" in notes[-1] or re.match(r"\w+:\d+:", notes[-1])):
            return dict(mu, error="; ".join(notes)[-800:], failed=failed)
    # which property theorems are complete
    thms = []
    for f in files:
        src = open(f"{ROCQ}/theories/{f}.v").read()
        for m in re.finditer(r"^\s*(?:Theorem|Corollary)\s+(C\d\d+_\w*)", src, re.M): thms.append((f, m.group(1)))
    s = "From Verif Require " + " ".join(sorted({f for f, _ in thms})) + ".\n"
    alive = []
    for f, n in thms:
        if f"{f}.{n}" in failed: continue
        alive.append((f, n)); s += f'Goal True. idtac "@@{f}.{n}". exact I. Qed.\nPrint Assumptions Verif.{f}.{n}.\n'
    open(f"{d}/q.v", "w").write(s)
    r = subprocess.run(["coqc", "-w", "none", "-Q", "theories", "Verif", "q.v"], cwd=d, capture_output=True, text=True)
    broken = [n for f, n in thms if f"{f}.{n}" in failed]; cur = None; cutnames = {x.split(".")[-1] for x in failed}
    bad = set()
    for l in (r.stdout + "\n" + r.stderr).split("\n"):
        if "@@" in l: cur = l.split("@@")[1].strip(); continue
        mm = re.match(r"^([A-Za-z0-9_.']+)\s*:?", l)
        if cur and mm and not l.startswith(" "):
            nm = mm.group(1)
            if nm.split(".")[-1] in cutnames and not nm.startswith("mathcomp"): bad.add(cur)
    if r.returncode: notes.append("assumptions query failed: " + r.stderr[-300:])
    broken += [n for f, n in thms if f"{f}.{n}" in bad]
    claims = sorted({n.split('_')[0] for n in broken}); allc = sorted({n.split('_')[0] for _, n in thms})
    res = dict(mu, failed=failed, broken=broken, broken_claims=claims, intact_claims=[c for c in allc if c not in claims],
               missed=[c for c in mu["breaks"] if c not in claims], notes=notes)
    shutil.rmtree(d, ignore_errors=True)
    return res

if __name__ == "__main__":
    mus = json.load(open(sys.argv[1])); jobs = int(sys.argv[3]) if len(sys.argv) > 3 else 4
    with ThreadPoolExecutor(jobs) as ex:
        for r in ex.map(run, mus):
            open(sys.argv[2], "a").write(json.dumps(r) + "\n")
            print(r["id"], "ERROR " + r["error"][:300] if "error" in r else f"broken {r['broken_claims']} missed {r['missed']} notes {len(r['notes'])}", flush=True)
