#!/usr/bin/env python3
"""Print Assumptions of every theorem named in MANIFEST.json, grouped; rewrites the
table between the markers in DESIGN.md.  Run after a build, from /verif."""
import json, re, subprocess, glob, os, tempfile
m = json.load(open('MANIFEST.json'))
where = {}
for f in glob.glob('rocq/theories/Props/*.v'):
    for n in re.findall(r'^(?:Theorem|Lemma|Corollary) (\w+)', open(f).read(), re.M):
        where.setdefault(n, os.path.basename(f)[:-2])
names = [t for c in m['claims'] for t in c['theorems']]
names = list(dict.fromkeys(names))
d = tempfile.mkdtemp()
groups = {}
bymod = {}
for n in names: bymod.setdefault(where[n], []).append(n)
def one(item):
    mod, ns = item
    src = 'From Verif.Props Require %s.\n' % mod
    for n in ns:
        src += 'Print Assumptions Verif.Props.%s.%s.\n' % (mod, n)
    p = os.path.join(d, 'A_%s.v' % mod); open(p, 'w').write(src)
    out = subprocess.run(['coqc', '-Q', 'rocq/theories', 'Verif', p], capture_output=True, text=True)
    assert out.returncode == 0, out.stderr
    blocks = re.split(r'(?m)^(?=Closed under|Axioms:)', out.stdout)
    blocks = [b for b in blocks if b.strip()]
    assert len(blocks) == len(ns), (mod, len(blocks), len(ns))
    return ns, blocks
from concurrent.futures import ThreadPoolExecutor
with ThreadPoolExecutor(3) as pool:
    for ns, blocks in pool.map(one, sorted(bymod.items())):
        for n, b in zip(ns, blocks):
            ax = frozenset(re.findall(r'(?m)^([A-Za-z_][\w.]*)\s*:', b)) - {'Axioms'} if b.startswith('Axioms') else frozenset()
            groups.setdefault(ax, []).append(n)
txt = ''
for ax, ns in sorted(groups.items(), key=lambda kv: (len(kv[0]), sorted(kv[0]))):
    head = 'none (closed under the global context)' if not ax else ', '.join('`%s`' % a for a in sorted(ax))
    txt += '* **%s**: %s\n' % (head, ', '.join('`%s`' % n for n in sorted(ns)))
s = open('DESIGN.md').read()
a, b = '<!-- assumptions -->\n', '<!-- end assumptions -->'
i, j = s.index(a) + len(a), s.index(b)
open('DESIGN.md', 'w').write(s[:i] + txt + s[j:])
print({tuple(sorted(k)): len(v) for k, v in groups.items()})
