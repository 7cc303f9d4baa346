#!/usr/bin/env python3
"""Group the property theorems by what Print Assumptions lists for them and put the table into
DESIGN.md, between the lines <!-- assumptions --> and <!-- /assumptions -->."""
import glob, os, re, subprocess, tempfile
R = '/verif/rocq'
groups = {}
for l in open(R + '/_CoqProject'):
    f = l.strip()
    if not f.endswith('.v'): continue
    ts = re.findall(r'^\s*Theorem (C\d\d+_\w+)', open(R + '/' + f).read(), re.M)
    if not ts: continue
    mod = os.path.basename(f)[:-2]
    d = tempfile.mkdtemp()
    open(d + '/q.v', 'w').write('From Coq Require Import Arith.\nFrom Verif Require Import %s.\n' % mod +
        ''.join('Check 0%%nat.\nPrint Assumptions %s.\n' % t for t in ts))
    out = subprocess.run(['coqc', '-Q', R + '/theories', 'Verif', d + '/q.v'], capture_output=True, text=True)
    assert out.returncode == 0, out.stderr
    parts = re.split(r'^0(?:%nat)?\s*\n\s*: nat$', out.stdout, flags=re.M)[1:]
    assert len(parts) == len(ts), (mod, len(parts), len(ts))
    for t, p in zip(ts, parts):
        ax = () if 'Closed under the global context' in p else tuple(sorted(set(re.findall(r'^([A-Za-z_][\w.\']*)(?=\s*:|\s*$)', p, re.M)) - {'Axioms'}))
        groups.setdefault(ax, []).append(t)
txt = ''
for ax in sorted(groups, key=len):
    ts = sorted(groups[ax])
    txt += '* **%s** (%d theorems): %s\n' % ('no axioms (closed under the global context)' if not ax else ', '.join('`%s`' % a for a in ax), len(ts), ', '.join(ts))
s = open('/verif/DESIGN.md').read()
a, b = '<!-- assumptions -->\n', '<!-- /assumptions -->'
i, j = s.index(a) + len(a), s.index(b)
open('/verif/DESIGN.md', 'w').write(s[:i] + txt + s[j:])
print({len(k): len(v) for k, v in groups.items()})
