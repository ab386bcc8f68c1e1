#!/usr/bin/env python3
"""Print Assumptions for every theorem of MANIFEST.json, grouped by the axioms (needs a build in rocq/)."""
import json, re, glob, subprocess, collections, os
man = json.load(open('/verif/MANIFEST.json'))['claims']
loc = {}
for f in sorted(glob.glob('/verif/rocq/theories/*Props*.v')):
    for m in re.finditer(r'^\s*Theorem (C\d+_\w+)', open(f).read(), re.M): loc[m.group(1)] = os.path.basename(f)[:-2]
names = [t for c in man for t in c['theorems']]
src = 'From Verif Require ' + ' '.join(sorted({loc[n] for n in names})) + '.\n'
src += ''.join('Goal True. idtac "@@ %s". Abort.\nPrint Assumptions Verif.%s.%s.\n' % (n, loc[n], n) for n in names)
os.makedirs('/tmp/ass', exist_ok=True)
open('/tmp/ass/All.v', 'w').write(src)
out = subprocess.run(['coqc', '-q', '-Q', '/verif/rocq/theories', 'Verif', '/tmp/ass/All.v'], capture_output=True, text=True).stdout
groups = collections.OrderedDict()
for blk in out.split('@@ ')[1:]:
    n, rest = blk.split('\n', 1)
    ax = tuple(sorted(set(re.findall(r'^([A-Za-z_][\w.\']*)\s*(?::|$)', rest, re.M)) - {'Axioms', 'Closed', 'Section'}))
    groups.setdefault(ax, []).append(n)
res = ''
for ax, ns in sorted(groups.items(), key=lambda kv: len(kv[0])):
    res += '* ' + ('Closed under the global context' if not ax else ', '.join('`%s`' % a for a in ax)) + ' (%d): ' % len(ns) + ', '.join(ns) + '.\n'
assert sum(len(v) for v in groups.values()) == len(names), (sum(len(v) for v in groups.values()), len(names))
open('/verif/tools/assumptions.md', 'w').write(res)
print([(k, len(v)) for k, v in groups.items()])
