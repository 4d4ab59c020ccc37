#!/usr/bin/env python3
"""Group the manifest's theorems by what Print Assumptions lists (needs a finished build of rocq/) and put the result
between the markers of DESIGN.md."""
import json, re, subprocess, collections, glob, os, tempfile
root = os.path.dirname(os.path.dirname(os.path.abspath(__file__)))
where = {}
for f in sorted(glob.glob(root + '/rocq/theories/Properties_*.v')):
    for n in re.findall(r'^\s*Theorem (C\d\d_\w+)', open(f).read(), re.M):
        where[n] = os.path.basename(f)[:-2]
names = [t for c in json.load(open(root + '/MANIFEST.json'))['claims'] for t in c['theorems']]
src = ''.join(f'From Verif Require {m}.\n' for m in sorted(set(where.values())))
src += 'From Coq Require Import String.\nOpen Scope string_scope.\n'
for n in names:
    src += f'Eval compute in "@@{n}".\nPrint Assumptions {where[n]}.{n}.\n'
with tempfile.TemporaryDirectory() as d:
    open(d + '/a.v', 'w').write(src)
    out = subprocess.run(['coqc', '-Q', root + '/rocq/theories', 'Verif', d + '/a.v'], capture_output=True, text=True)
    assert out.returncode == 0, out.stderr
groups = collections.OrderedDict()
for part in out.stdout.split('= "@@')[1:]:
    n = part.split('"')[0]
    ax = tuple(sorted(set(re.findall(r'^(\w[\w.]*)\s*$|^(\w[\w.]*) :', part, re.M)) and {a or b for a, b in re.findall(r'^([A-Za-z][\w.]*)$|^([A-Za-z][\w.]*) :', part, re.M)} - {'Axioms'}))
    if 'Closed under the global context' in part: ax = ()
    groups.setdefault(ax, []).append(n)
txt = ''
for ax, ns in sorted(groups.items(), key=lambda p: len(p[0])):
    txt += ('* **No axioms** (closed under the global context)' if not ax else '* ' + ', '.join(f'`{a}`' for a in ax)) + f' - {len(ns)} theorems:\n'
    by = collections.OrderedDict()
    for n in ns: by.setdefault(n.split('_', 1)[0], []).append(n.split('_', 1)[1])
    txt += '  ' + '; '.join(c + ' ' + ', '.join(l) for c, l in by.items()) + '.\n'
p = root + '/DESIGN.md'
s = open(p).read()
b, e = '<!-- assumptions -->\n', '<!-- /assumptions -->\n'
if b in s:
    s = s[:s.index(b) + len(b)] + txt + s[s.index(e):]
    open(p, 'w').write(s)
print(txt)
