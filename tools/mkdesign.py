#!/usr/bin/env python3
"""Writes DESIGN.md from tools/design_head.md, tools/plan.json, tools/design_tail.md, the headers of the models and Print Assumptions
(the theories must have been compiled)."""
import re, json, glob, os, subprocess, tempfile
root = os.path.dirname(os.path.dirname(os.path.abspath(__file__)))
th = os.path.join(root, 'rocq', 'theories')
man = json.load(open(root + '/MANIFEST.json'))
props = [json.loads(l) for l in open(root + '/properties.jsonl')]
plan = json.load(open(root + '/tools/plan.json'))
where = {}
for f in sorted(glob.glob(th + '/Thm_*.v')):
    for m in re.finditer(r'^ *(?:Theorem|Corollary)\s+(C\d+_\w+)', open(f).read(), re.M):
        where[m.group(1)] = os.path.basename(f)[:-2]
out = [open(root + '/tools/design_head.md').read().rstrip(), '', '## 3. Per property: what is modelled, how it is proved', '',
       '| id | property | modelled and proved how | theorems in | status |', '|----|----|----|----|----|']
st = {c['property']: c for c in man['claims']}
for p in props:
    c = st.get(p['id'])
    fs = ', '.join(sorted({where[t] for t in c['theorems']})) if c else '-'
    out.append('| %s | %s | %s | %s | %s |' % (p['id'], p['title'], plan.get(p['id'], ''), fs, c['status'] if c else 'planned'))
out += ['', open(root + '/tools/design_tail.md').read().rstrip(), '', '## 5. Modelled code', '',
        'Header of every model file (each definition in it cites the lines it models):', '']
for f in sorted(glob.glob(th + '/M_*.v')):
    h = re.match(r'\(\*\*(.*?)\*\)', open(f).read(), re.S).group(1)
    out.append('* **%s** - %s' % (os.path.basename(f), ' '.join(h.replace('* ', ' ', 1).split())))
names = [t for c in man['claims'] for t in c['theorems']]
src = ''.join('From Verif Require %s.\n' % w for w in sorted(set(where.values())))
src += 'From Coq Require Import String. Local Open Scope string_scope.\n'
for n in names:
    src += 'Eval compute in "@@%s". Print Assumptions %s.%s.\n' % (n, where[n], n)
with tempfile.TemporaryDirectory() as d:
    open(d + '/A.v', 'w').write(src)
    r = subprocess.run(['coqc', '-Q', th, 'Verif', d + '/A.v'], capture_output=True, text=True)
    assert r.returncode == 0, r.stderr
parts = re.split(r'= "@@(\w+)"\s*: string', r.stdout)
closed, rest = [], {}
for n, body in zip(parts[1::2], parts[2::2]):
    if 'Closed under the global context' in body: closed.append(n)
    else: rest[n] = sorted(set(re.findall(r'^([\w.]+)\s*:', body, re.M)) - {'Axioms'})
out += ['', '## 6. Assumptions (output of Print Assumptions, generated by tools/mkdesign.py)', '',
        '%d of the %d theorems are **closed under the global context** (no axiom at all). The others use only axioms of the standard' % (len(closed), len(names)),
        'library (real numbers, through `Reals`/Flocq):', '']
for n, ax in rest.items(): out.append('* `%s`: %s' % (n, ', '.join('`%s`' % a for a in ax)))
assert len(closed) + len(rest) == len(names)
out += ['', '`vcheck` additionally lists symbols of `Coq.Reals.Rdefinitions` (the abstract constants of the module type that seals the real',
        'numbers, including `Rlt_def` etc.) and `Coq.ssr.ssrunder.Under_rel.*`: these belong to standard library modules that are loaded, not',
        'to the assumptions of a theorem.', '', 'Closed theorems: ' + ', '.join('`%s`' % n for n in closed) + '.']
open(root + '/DESIGN.md', 'w').write('\n'.join(out) + '\n')
print('closed', len(closed), 'with axioms', list(rest))
